(** Proofs about the line searches. *)
From Coq Require Import Reals Lra.
From Verif Require Import Base Common_Model KDReal_Proofs Vec Loss_Model Lbfgs_Model LineSearch_Spec OptimSteps_Proofs.
Local Open Scope R_scope.
Set Implicit Arguments.

Lemma dotM_inv u v a : dotM u v = Ok a -> length u = length v /\ a = dot u v.
Proof. unfold dotM. destruct (Nat.eqb_spec (length u) (length v)); [|discriminate]. intro H. injection H as <-. auto. Qed.
Lemma dotM_Ok u v : length u = length v -> dotM u v = Ok (dot u v).
Proof. intro H. unfold dotM. rewrite H, Nat.eqb_refl. auto. Qed.

Section Search.
  Variable evaluate : list R -> outcome R.
  Variable gradient : list R -> outcome (list R).
  Variable P : ls_params.
  Variables xp d : list R.
  Variables fx slope : R.

  Lemma judge_spec step fx' g' v : judge P fx slope fx' g' d step = Ok v ->
    match v with
    | Accept => acceptable P d fx slope step fx' g'
    | TooLong => fx + step * (ftol P * slope) < fx' \/ (condition P = OtherCondition /\ wolfe P * slope <= dot d g' /\ - (wolfe P * slope) < dot d g')
    | TooShort => fx' <= fx + step * (ftol P * slope) /\ condition P <> Armijo /\ dot d g' < wolfe P * slope
    end.
  Proof.
    unfold judge, acceptable. destruct (Rltb _ fx') eqn:A; [apply Rltb_true in A; intro H; injection H as <-; auto|]. apply Rltb_false in A.
    destruct (condition P) eqn:C.
    - intro H; injection H as <-. auto.
    - destruct (dotM d g') as [dg| | |] eqn:D; try discriminate. apply dotM_inv in D as (D1 & ->). cbn [bind].
      destruct (Rltb _ (wolfe P * slope)) eqn:B; [apply Rltb_true in B|apply Rltb_false in B]; intro H; injection H as <-; auto.
      split; [auto|]. split; [discriminate|auto].
    - destruct (dotM d g') as [dg| | |] eqn:D; try discriminate. apply dotM_inv in D as (D1 & ->). cbn [bind].
      destruct (Rltb _ (wolfe P * slope)) eqn:B; [apply Rltb_true in B|apply Rltb_false in B].
      + intro H; injection H as <-; auto. split; [auto|]. split; [discriminate|auto].
      + destruct (Rltb (- wolfe P * slope) _) eqn:E; [apply Rltb_true in E|apply Rltb_false in E]; intro H; injection H as <-.
        * right. split; auto. split; auto. lra.
        * split; auto. lra.
  Qed.
  Lemma judge_defined step fx' g' : length g' = length d -> exists v, judge P fx slope fx' g' d step = Ok v.
  Proof.
    intro L. unfold judge. destruct (Rltb _ fx'); [eauto|]. destruct (condition P); [eauto|..]; rewrite dotM_Ok by auto; cbn [bind]; destruct (Rltb _ _); eauto.
    destruct (Rltb _ _); eauto.
  Qed.
  (** The three cases exclude each other. *)
  Lemma acceptable_not_long step x fx' g' : at_step evaluate gradient xp d step x fx' g' -> acceptable P d fx slope step fx' g' -> ~ long_step evaluate gradient P xp d fx slope step.
  Proof.
    intros (L & Ex & E & G) (A & B) (x2 & f2 & g2 & (L2 & Ex2 & E2 & G2) & C). subst x x2. assert (f2 = fx') by congruence. assert (g2 = g') by congruence. subst.
    destruct C as [C|(C & C1 & C2)]; [lra|]. rewrite C in B. lra.
  Qed.
  Lemma short_not_long step : short_step evaluate gradient P xp d fx slope step -> ~ long_step evaluate gradient P xp d fx slope step.
  Proof.
    intros (x & f & g & (L & Ex & E & G) & A & N & B) (x2 & f2 & g2 & (L2 & Ex2 & E2 & G2) & C). subst x x2. assert (f2 = f) by congruence. assert (g2 = g) by congruence. subst. lra.
  Qed.
  Lemma acceptable_not_short step x fx' g' : at_step evaluate gradient xp d step x fx' g' -> acceptable P d fx slope step fx' g' -> ~ short_step evaluate gradient P xp d fx slope step.
  Proof.
    intros (L & Ex & E & G) (A & B) (x2 & f2 & g2 & (L2 & Ex2 & E2 & G2) & C & N & D). subst x x2. assert (f2 = fx') by congruence. assert (g2 = g') by congruence. subst.
    destruct (condition P); [congruence|lra|lra].
  Qed.

  Variable St : Type.
  Variable too_long too_short : St -> R -> St.
  Variable next : St -> R -> R.
  Variable Inv : St -> list R -> R -> Prop.
  Notation long := (long_step evaluate gradient P xp d fx slope).
  Notation short := (short_step evaluate gradient P xp d fx slope).
  Hypothesis Hlong : forall s tried step, Inv s tried step -> long step -> Inv (too_long s step) (tried ++ [step]) (next (too_long s step) step).
  Hypothesis Hshort : forall s tried step, Inv s tried step -> short step -> Inv (too_short s step) (tried ++ [step]) (next (too_short s step) step).

  Definition outcome_of (r : ls_result) : Prop :=
    exists s tried, Inv s tried (ls_step r) /\ ls_tried r = tried ++ [ls_step r] /\
      at_step evaluate gradient xp d (ls_step r) (ls_x r) (ls_fx r) (ls_g r) /\
      (length (ls_tried r) <= Nat.max 1 (max_linesearch P))%nat /\
      match ls_code r with
      | Some n => n = length (ls_tried r) /\ acceptable P d fx slope (ls_step r) (ls_fx r) (ls_g r)
      | None => (long (ls_step r) \/ short (ls_step r)) /\ exhausted P (ls_step r) (length (ls_tried r))
      end.
  Lemma loop_outcome fuel : forall s count step tried r, Inv s tried step -> count = length tried -> (count = 0 \/ count < max_linesearch P)%nat ->
    search_loop evaluate gradient P too_long too_short next fuel fx slope d xp s count step tried = Ok r -> outcome_of r.
  Proof.
    induction fuel as [|fuel IH]; intros s count step tried r I Hc Hm E; [discriminate|]. cbn [search_loop] in E.
    destruct (add xp (vscale step d)) as [x| | |] eqn:Ex; try discriminate. cbn [bind] in E. apply add_inv in Ex as (L & ->).
    destruct (evaluate _) as [f| | |] eqn:Ef; try discriminate. cbn [bind] in E.
    destruct (gradient _) as [g| | |] eqn:Eg; try discriminate. cbn [bind] in E.
    destruct (judge _ _ _ _ _ _ _) as [v| | |] eqn:Ej; try discriminate. cbn [bind] in E. apply judge_spec in Ej.
    assert (A : at_step evaluate gradient xp d step (vadd xp (vscale step d)) f g). { rewrite vscale_length in L. split; auto. }
    assert (Len : length (tried ++ [step]) = S count) by (rewrite app_length; cbn; lia).
    assert (Bound : (length (tried ++ [step]) <= Nat.max 1 (max_linesearch P))%nat) by lia.
    destruct v.
    - injection E as <-. exists s, tried. cbn. repeat (split; [solve [auto]|]). auto.
    - assert (Lg : long step) by (do 3 eexists; eauto). specialize (Hlong I Lg).
      destruct (Rltb step (min_step P)) eqn:E1; [|destruct (Rltb (max_step P) step) eqn:E2; [|destruct (Nat.leb_spec (max_linesearch P) (S count)) as [E3|E3]]].
      4: { eapply IH; [exact Hlong| |right; exact E3|exact E]. lia. }
      all: injection E as <-; exists s, tried; cbn; repeat (split; [solve [auto]|]); unfold exhausted; try apply Rltb_true in E1; try apply Rltb_true in E2; rewrite ?Len; auto.
    - assert (Lg : short step) by (do 3 eexists; eauto). specialize (Hshort I Lg).
      destruct (Rltb step (min_step P)) eqn:E1; [|destruct (Rltb (max_step P) step) eqn:E2; [|destruct (Nat.leb_spec (max_linesearch P) (S count)) as [E3|E3]]].
      4: { eapply IH; [exact Hshort| |right; exact E3|exact E]. lia. }
      all: injection E as <-; exists s, tried; cbn; repeat (split; [solve [auto]|]); unfold exhausted; try apply Rltb_true in E1; try apply Rltb_true in E2; rewrite ?Len; auto.
  Qed.

  (** Definedness. *)
  Lemma loop_defined fuel : forall s count step tried, length d = length xp ->
    (forall x, length x = length xp -> exists f g, evaluate x = Ok f /\ gradient x = Ok g /\ length g = length xp) ->
    (max_linesearch P < fuel + count)%nat -> (0 < fuel)%nat ->
    exists r, search_loop evaluate gradient P too_long too_short next fuel fx slope d xp s count step tried = Ok r.
  Proof.
    induction fuel as [|fuel IH]; intros s count step tried L HF Hm H0; [lia|]. cbn [search_loop].
    rewrite add_Ok by (rewrite vscale_length; auto). cbn [bind].
    destruct (HF (vadd xp (vscale step d))) as (f & g & Ef & Eg & Lg); [apply vadd_length; rewrite vscale_length; auto|]. rewrite Ef, Eg. cbn [bind].
    destruct (@judge_defined step f g) as (v & ->); [congruence|]. cbn [bind].
    destruct v; [eauto|..]; destruct (Rltb step (min_step P)); eauto; destruct (Rltb (max_step P) step); eauto; destruct (Nat.leb_spec (max_linesearch P) (S count)) as [E3|E3]; eauto; apply IH; auto; lia.
  Qed.
  (** Never out of fuel. *)
  Lemma loop_no_fuel fuel : forall s count step tried, (forall x, evaluate x <> Fuel) -> (forall x, gradient x <> Fuel) ->
    (max_linesearch P < fuel + count)%nat -> (0 < fuel)%nat ->
    search_loop evaluate gradient P too_long too_short next fuel fx slope d xp s count step tried <> Fuel.
  Proof.
    induction fuel as [|fuel IH]; intros s count step tried HE HG Hm H0; [lia|]. cbn [search_loop].
    unfold add. destruct (length xp =? _)%nat; [|discriminate]. cbn [bind].
    destruct (evaluate _) as [f| | |] eqn:Ef; try discriminate; [|now apply HE in Ef]. cbn [bind].
    destruct (gradient _) as [g| | |] eqn:Eg; try discriminate; [|now apply HG in Eg]. cbn [bind].
    destruct (judge _ _ _ _ _ _ _) as [v| | |] eqn:Ej; try discriminate; cbn [bind].
    2: { unfold judge in Ej. destruct (Rltb _ f); [discriminate|]. unfold dotM in Ej. destruct (condition P); try discriminate; destruct (length d =? length g)%nat; cbn [bind] in Ej; try discriminate; destruct (Rltb _ _); try discriminate. destruct (Rltb _ _); discriminate. }
    destruct v; [discriminate|..]; destruct (Rltb step (min_step P)); try discriminate; destruct (Rltb (max_step P) step); try discriminate;
      destruct (Nat.leb_spec (max_linesearch P) (S count)) as [E3|E3]; try discriminate; apply IH; auto; lia.
  Qed.
End Search.

Lemma consecutive_snoc {A} (l : list A) x before a b : consecutive (l ++ [x]) before a b ->
  consecutive l before a b \/ (exists l', l = l' ++ [a] /\ before = l' /\ b = x).
Proof.
  intros (after & E). destruct (rev after) as [|z after'] eqn:Er.
  - assert (after = []) by (rewrite <- (rev_involutive after), Er; auto). subst after. right.
    change (before ++ [a; b]) with (before ++ [a] ++ [b]) in E. rewrite app_assoc in E. apply app_inj_tail in E as (-> & ->). eauto.
  - assert (after = rev after' ++ [z]) by (rewrite <- (rev_involutive after), Er; auto). subst after. left. exists (rev after').
    change (a :: b :: rev after' ++ [z]) with ((a :: b :: rev after') ++ [z]) in E. rewrite app_assoc in E. apply app_inj_tail in E as (-> & _). auto.
Qed.

Section Policies.
  Variable evaluate : list R -> outcome R.
  Variable gradient : list R -> outcome (list R).
  Variable P : ls_params.
  Variables xp d : list R.
  Variables fx slope first : R.
  Notation long := (long_step evaluate gradient P xp d fx slope).
  Notation short := (short_step evaluate gradient P xp d fx slope).

  Lemma hd_snoc (l : list R) x y : hd_error l = Some y -> hd_error (l ++ [x]) = Some y.
  Proof. destruct l; [discriminate|]. auto. Qed.

  Definition back_inv (_ : R) (tried : list R) (step : R) : Prop :=
    backtracking_steps P long short first (tried ++ [step]) /\ (0 < dec_factor P -> 0 < inc_factor P -> 0 < first -> 0 < step).
  Lemma back_long s tried step : back_inv s tried step -> long step -> back_inv (dec_factor P) (tried ++ [step]) (step * dec_factor P).
  Proof.
    intros ((I1 & I2) & I3) L. split; [split; [now apply hd_snoc|]|intros; apply Rmult_lt_0_compat; auto].
    intros before a b C. apply consecutive_snoc in C as [C|(l' & E & -> & ->)]; [eauto|]. apply app_inj_tail in E as (-> & ->). auto.
  Qed.
  Lemma back_short s tried step : back_inv s tried step -> short step -> back_inv (inc_factor P) (tried ++ [step]) (step * inc_factor P).
  Proof.
    intros ((I1 & I2) & I3) L. split; [split; [now apply hd_snoc|]|intros; apply Rmult_lt_0_compat; auto].
    intros before a b C. apply consecutive_snoc in C as [C|(l' & E & -> & ->)]; [eauto|]. apply app_inj_tail in E as (-> & ->). auto.
  Qed.

  Definition brk_next (s : R * option R) (step : R) : R := match snd s with None => 2 * step | Some hi => (fst s + hi) / 2 end.
  Definition brk_inv (s : R * option R) (tried : list R) (step : R) : Prop :=
    bracketing_steps long short first (tried ++ [step]) /\ narrowing long short (tried ++ [step]) /\
    longest_short short tried (fst s) /\ 0 <= fst s < step /\
    match snd s with None => forall c, In c tried -> ~ long c | Some hi => shortest_long long tried hi /\ step < hi end.

  Lemma narrow_snoc (l : list R) b : narrowing long short l -> (forall a, In a l -> (long a -> b < a) /\ (short a -> a < b)) -> narrowing long short (l ++ [b]).
  Proof.
    intros N H before a after E c Hc. destruct (rev after) as [|z after'] eqn:Er.
    - assert (after = []) by (rewrite <- (rev_involutive after), Er; auto). subst after. destruct Hc.
    - assert (after = rev after' ++ [z]) by (rewrite <- (rev_involutive after), Er; auto). subst after.
      change (a :: rev after' ++ [z]) with ((a :: rev after') ++ [z]) in E. rewrite app_assoc in E. apply app_inj_tail in E as (El & Eb). subst z.
      apply in_app_or in Hc as [Hc|[<-|[]]]; [eapply N; eauto|]. apply H. rewrite El. apply in_or_app. right. now left.
  Qed.
  Lemma steps_snoc (l : list R) a b : bracketing_steps long short first (l ++ [a]) -> (short a \/ long a) ->
    (((forall c, In c (l ++ [a]) -> ~ long c) /\ b = 2 * a) \/
       (exists lo hi, longest_short short (l ++ [a]) lo /\ shortest_long long (l ++ [a]) hi /\ b = (lo + hi) / 2)) ->
    bracketing_steps long short first ((l ++ [a]) ++ [b]).
  Proof.
    intros (H1 & H2) Ha H. split; [now apply hd_snoc|]. intros before a' b' C. apply consecutive_snoc in C as [C|(l' & E & -> & ->)]; [eauto|].
    apply app_inj_tail in E as (-> & <-). auto.
  Qed.
  Lemma brk_long s tried step : brk_inv s tried step -> long step ->
    brk_inv (fst s, Some step) (tried ++ [step]) (brk_next (fst s, Some step) step).
  Proof.
    intros (I1 & I2 & I3 & I4 & I5) L. unfold brk_next. cbn [fst snd]. set (n := (fst s + step) / 2).
    assert (Hn : fst s < n < step) by (unfold n; lra).
    assert (LS : longest_short short (tried ++ [step]) (fst s)).
    { destruct I3 as (C1 & C2). split.
      - destruct C1 as [(Z & C1)|(C1 & C1')]; [left; split; auto; intros c Hc; apply in_app_or in Hc as [Hc|[<-|[]]]; auto; intro Sh; exact (short_not_long Sh L)|right; split; [apply in_or_app; auto|auto]].
      - intros c Hc Sh. apply in_app_or in Hc as [Hc|[<-|[]]]; auto. exfalso. exact (short_not_long Sh L). }
    assert (SL : shortest_long long (tried ++ [step]) step).
    { split; [apply in_or_app; right; now left|]. split; auto. intros c Hc Lc. apply in_app_or in Hc as [Hc|[<-|[]]]; [|lra].
      destruct (snd s) as [hi|]; [|exfalso; eapply I5; eauto]. destruct I5 as ((_ & _ & I5) & I6). specialize (I5 c Hc Lc). lra. }
    split; [|split; [|split; [exact LS|split; [cbn [fst]; lra|]]]].
    - apply steps_snoc; auto. right. exists (fst s), step. auto.
    - apply narrow_snoc; auto. intros c Hc. split; intro Q.
      + pose proof (proj2 (proj2 SL) c Hc Q). lra.
      + pose proof (proj2 LS c Hc Q). lra.
    - cbn [snd]. split; [exact SL|]. lra.
  Qed.
  Lemma brk_short s tried step : brk_inv s tried step -> short step ->
    brk_inv (step, snd s) (tried ++ [step]) (brk_next (step, snd s) step).
  Proof.
    intros (I1 & I2 & I3 & I4 & I5) L. assert (NL : ~ long step) by now apply short_not_long.
    assert (LS : longest_short short (tried ++ [step]) step).
    { split; [right; split; [apply in_or_app; right; now left|auto]|]. intros c Hc Sh. apply in_app_or in Hc as [Hc|[<-|[]]]; [|lra].
      pose proof (proj2 I3 c Hc Sh). lra. }
    assert (SL : match snd s with None => forall c, In c (tried ++ [step]) -> ~ long c | Some hi => shortest_long long (tried ++ [step]) hi /\ step < hi end).
    { destruct (snd s) as [hi|].
      - destruct I5 as ((A & B & C) & D). split; auto. split; [apply in_or_app; auto|]. split; auto. intros c Hc Lc. apply in_app_or in Hc as [Hc|[<-|[]]]; [auto|contradiction].
      - intros c Hc. apply in_app_or in Hc as [Hc|[<-|[]]]; auto. }
    set (n := brk_next (step, snd s) step).
    assert (Hn : step < n /\ match snd s with None => n = 2 * step | Some hi => n < hi /\ n = (step + hi) / 2 end).
    { unfold n, brk_next. cbn [fst snd]. destruct (snd s) as [hi|]; [destruct SL; lra|lra]. }
    split; [|split; [|split; [exact LS|split; [cbn [fst]; lra|]]]].
    - apply steps_snoc; auto. destruct (snd s) as [hi|]; [right; exists step, hi; destruct Hn as (_ & _ & Hn), SL as (SL & _); auto|left; split; auto; apply Hn].
    - apply narrow_snoc; auto. intros c Hc. split; intro Q.
      + destruct (snd s) as [hi|]; [|exfalso; eapply SL; eauto]. pose proof (proj2 (proj2 (proj1 SL)) c Hc Q). lra.
      + pose proof (proj2 LS c Hc Q). lra.
    - cbn [snd]. destruct (snd s) as [hi|]; auto. split; [apply SL|apply Hn].
  Qed.
End Policies.

(** The searches as a whole. *)
Section Whole.
  Variable evaluate : list R -> outcome R.
  Variable gradient : list R -> outcome (list R).
  Variable P : ls_params.

  Definition unchanged (x : list R) (fx : R) (g : list R) (step : R) (r : ls_result) : Prop :=
    ls_code r = None /\ ls_x r = x /\ ls_fx r = fx /\ ls_g r = g /\ ls_step r = step /\ ls_tried r = [].

  Lemma search_cases {St} tl ts (next : St -> R -> R) s0 x fx g d step xp r (Inv : St -> list R -> R -> Prop) :
    search evaluate gradient P tl ts next s0 x fx g d step xp = Ok r ->
    (0 < step -> Inv s0 [] step) ->
    (forall s tried st, Inv s tried st -> long_step evaluate gradient P xp d fx (dot d g) st -> Inv (tl s st) (tried ++ [st]) (next (tl s st) st)) ->
    (forall s tried st, Inv s tried st -> short_step evaluate gradient P xp d fx (dot d g) st -> Inv (ts s st) (tried ++ [st]) (next (ts s st) st)) ->
    (unchanged x fx g step r /\ (step <= 0 \/ 0 < dot d g)) \/
    (0 < step /\ dot d g <= 0 /\ length d = length g /\ outcome_of evaluate gradient P xp d fx (dot d g) Inv r).
  Proof.
    intros E H0 HL HS. unfold search in E. destruct (Rltb 0 step) eqn:A; cbn [negb] in E.
    - apply Rltb_true in A. destruct (dotM d g) as [s| | |] eqn:D; try discriminate. apply dotM_inv in D as (D1 & ->). cbn [bind] in E.
      destruct (Rltb 0 (dot d g)) eqn:B.
      + apply Rltb_true in B. injection E as <-. left. split; [repeat split|]. auto.
      + apply Rltb_false in B. right. repeat (split; [solve [auto]|]). eapply loop_outcome; [exact HL|exact HS| | | |exact E]; auto.
    - apply Rltb_false in A. injection E as <-. left. split; [repeat split|]. auto.
  Qed.
  Lemma backtracking_cases x fx g d step xp r : backtracking evaluate gradient P x fx g d step xp = Ok r ->
    (unchanged x fx g step r /\ (step <= 0 \/ 0 < dot d g)) \/
    (0 < step /\ dot d g <= 0 /\ length d = length g /\ outcome_of evaluate gradient P xp d fx (dot d g) (back_inv evaluate gradient P xp d fx (dot d g) step) r).
  Proof.
    intro E. eapply search_cases; [exact E| | |].
    - intro H. split; [|auto]. split; [auto|]. intros before a b (after & Z). destruct before as [|? [|? ?]]; discriminate.
    - intros s tried st I L. now apply back_long with (s := s).
    - intros s tried st I L. now apply back_short with (s := s).
  Qed.
  Lemma bracketing_cases x fx g d step xp r : bracketing evaluate gradient P x fx g d step xp = Ok r ->
    (unchanged x fx g step r /\ (step <= 0 \/ 0 < dot d g)) \/
    (0 < step /\ dot d g <= 0 /\ length d = length g /\ outcome_of evaluate gradient P xp d fx (dot d g) (brk_inv evaluate gradient P xp d fx (dot d g) step) r).
  Proof.
    intro E. eapply search_cases; [exact E| | |].
    - intro H. split; [|split; [|split; [|split]]].
      + split; [auto|]. intros before a b (after & Z). destruct before as [|? [|? ?]]; discriminate.
      + intros before a after Z b Hb. destruct before as [|? [|? ?]]; [|discriminate..]. injection Z as _ <-. destruct Hb.
      + split; [left; split; auto; easy|easy].
      + cbn [fst]. lra.
      + cbn. easy.
    - intros s tried st I L. apply (brk_long I L).
    - intros s tried st I L. apply (brk_short I L).
  Qed.

  Lemma line_search_cases policy x fx g d step xp r : line_search policy evaluate gradient P x fx g d step xp = Ok r ->
    (unchanged x fx g step r /\ (step <= 0 \/ 0 < dot d g)) \/
    (0 < step /\ dot d g <= 0 /\ length d = length g /\
     outcome_of evaluate gradient P xp d fx (dot d g) (fun (_ : unit) _ st => 0 < dec_factor P -> 0 < inc_factor P -> 0 < st) r).
  Proof.
    intro E. destruct policy; [apply backtracking_cases in E|apply bracketing_cases in E|discriminate]; (destruct E as [E|(E1 & E2 & E3 & E4)]; [auto|]); right;
      (repeat (split; [solve [auto]|])); destruct E4 as (s & tried & I & E4); exists tt, tried; (split; [|exact E4]).
    - destruct I as (_ & I). auto.
    - destruct I as (_ & _ & _ & I & _). intros; lra.
  Qed.

  Lemma search_defined {St} tl ts (next : St -> R -> R) s0 x fx g d step xp : length d = length xp -> length g = length xp ->
    (forall x, length x = length xp -> exists f g, evaluate x = Ok f /\ gradient x = Ok g /\ length g = length xp) ->
    exists r, search evaluate gradient P tl ts next s0 x fx g d step xp = Ok r.
  Proof.
    intros L1 L2 H. unfold search. destruct (negb _); [eauto|]. rewrite dotM_Ok by congruence. cbn [bind]. destruct (Rltb _ _); [eauto|].
    apply loop_defined; auto; lia.
  Qed.
  Lemma search_no_fuel {St} tl ts (next : St -> R -> R) s0 x fx g d step xp : (forall x, evaluate x <> Fuel) -> (forall x, gradient x <> Fuel) ->
    search evaluate gradient P tl ts next s0 x fx g d step xp <> Fuel.
  Proof.
    intros H1 H2. unfold search. destruct (negb _); [discriminate|]. unfold dotM. destruct (_ =? _)%nat; [|discriminate]. cbn [bind]. destruct (Rltb _ _); [discriminate|].
    apply loop_no_fuel; auto; lia.
  Qed.
  Lemma line_search_no_fuel policy x fx g d step xp : (forall x, evaluate x <> Fuel) -> (forall x, gradient x <> Fuel) ->
    line_search policy evaluate gradient P x fx g d step xp <> Fuel.
  Proof. intros H1 H2. destruct policy; [apply search_no_fuel; auto..|discriminate]. Qed.

  (** Backtracking with the Armijo condition tries first * dec ^ i. *)
  Lemma armijo_geometric (long short : R -> Prop) first tried : (forall a, ~ short a) -> backtracking_steps P long short first tried ->
    forall i a, nth_error tried i = Some a -> a = first * dec_factor P ^ i /\ ((S i < length tried)%nat -> long a).
  Proof.
    intros NS (H1 & H2).
    assert (H : forall i a b, nth_error tried i = Some a -> nth_error tried (S i) = Some b -> long a /\ b = a * dec_factor P).
    { intros i a b Ha Hb. assert (C : consecutive tried (firstn i tried) a b).
      { exists (skipn (S (S i)) tried). clear - Ha Hb. revert tried Ha Hb. induction i as [|i IH]; intros [|c [|e l]] Ha Hb; cbn in *; try discriminate.
        - injection Ha as ->. injection Hb as ->. auto.
        - f_equal. apply (IH (e :: l)); auto. }
      apply H2 in C as [C|(C & _)]; [auto|now apply NS in C]. }
    induction i as [|i IH]; intros a Ha.
    - destruct tried; [discriminate|]. cbn in *. injection H1 as ->. injection Ha as ->. split; [lra|]. intro L. destruct tried as [|b t]; [cbn in L; lia|].
      apply (H 0%nat a b); auto.
    - destruct (nth_error tried i) as [p|] eqn:Ep; [|apply nth_error_None in Ep; assert (S i < length tried)%nat by (apply nth_error_Some; congruence); lia].
      destruct (IH p eq_refl) as (-> & _). destruct (H i _ _ Ep Ha) as (_ & ->). split; [cbn [pow]; ring|].
      intro L. destruct (nth_error tried (S (S i))) as [b|] eqn:Eb; [|apply nth_error_None in Eb; lia]. eapply H; eauto.
  Qed.
End Whole.
