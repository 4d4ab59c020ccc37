(** L-BFGS on data with the features in another order. *)
From Coq Require Import Reals Lra.
From Verif Require Import Base Common_Model KDReal_Proofs Impurity_Spec Impurity_Model Impurity_Proofs Vec MathFun_Model Loss_Model Lbfgs_Model Units_Spec UnitsMono_Proofs Cols_Spec Cols_Proofs.
Local Open Scope R_scope.
Set Implicit Arguments.

Section Lbfgs.
  Variable d : nat.
  Variable s : list nat.
  Hypothesis Hs : column_order d s.
  Notation rel := (reordered d s).
  Variables evaluate evaluate' : list R -> outcome R.
  Variables gradient gradient' : list R -> outcome (list R).
  Hypothesis He : forall w w', rel w w' -> evaluate' w' = evaluate w.
  Hypothesis Hg : forall w w', rel w w' -> same_outcome rel (gradient w) (gradient' w').

  Definition ls_rel (a b : ls_result) : Prop :=
    ls_code b = ls_code a /\ rel (ls_x a) (ls_x b) /\ ls_fx b = ls_fx a /\ rel (ls_g a) (ls_g b) /\ ls_step b = ls_step a.

  Section Search.
    Variable P : ls_params.
    Variable St : Type.
    Variable too_long too_short : St -> R -> St.
    Variable next : St -> R -> R.
    Lemma judge_rel fx0 dg0 fx g g' v v' step : rel g g' -> rel v v' -> judge P fx0 dg0 fx g' v' step = judge P fx0 dg0 fx g v step.
    Proof. intros H G. unfold judge. now rewrite (rel_dotM Hs G H). Qed.
    Lemma search_loop_rel fuel : forall fx0 dg0 v v' xp xp' (st : St) count step tried, rel v v' -> rel xp xp' ->
      same_outcome ls_rel (search_loop evaluate gradient P too_long too_short next fuel fx0 dg0 v xp st count step tried)
                          (search_loop evaluate' gradient' P too_long too_short next fuel fx0 dg0 v' xp' st count step tried).
    Proof.
      induction fuel as [|fuel IH]; intros fx0 dg0 v v' xp xp' st count step tried Hv Hxp; cbn [search_loop]; [exact I|].
      eapply orel_bind; [apply (rel_add Hs Hxp); apply (rel_vscale Hs _ Hv)|]. intros x x' _ _ Hx. rewrite (He Hx). apply same_bind. intros fx _.
      eapply orel_bind; [apply Hg, Hx|]. intros g g' _ _ Hgg. rewrite (judge_rel _ _ _ _ Hgg Hv). apply same_bind. intros w _.
      assert (HR : forall c, same_outcome ls_rel (Ok (LsResult c x fx g step (tried ++ [step]))) (Ok (LsResult c x' fx g' step (tried ++ [step])))).
      { intros c. cbn. unfold ls_rel. cbn. auto. }
      destruct w; [apply HR| |]; (destruct (Rltb step _); [apply HR|]; destruct (Rltb _ step); [apply HR|]; destruct (_ <=? _)%nat; [apply HR|]; now apply IH).
    Qed.
    Lemma search_rel (s0 : St) x x' fx g g' v v' step xp xp' : rel x x' -> rel g g' -> rel v v' -> rel xp xp' ->
      same_outcome ls_rel (search evaluate gradient P too_long too_short next s0 x fx g v step xp) (search evaluate' gradient' P too_long too_short next s0 x' fx g' v' step xp').
    Proof.
      intros Hx Hgg Hv Hxp. unfold search. assert (HR : same_outcome ls_rel (Ok (LsResult None x fx g step [])) (Ok (LsResult None x' fx g' step []))) by (cbn; unfold ls_rel; cbn; auto).
      destruct (negb _); [exact HR|]. rewrite (rel_dotM Hs Hv Hgg). apply same_bind. intros dg _. destruct (Rltb 0 dg); [exact HR|]. now apply search_loop_rel.
    Qed.
  End Search.
  Lemma line_search_rel policy P x x' fx g g' v v' step xp xp' : rel x x' -> rel g g' -> rel v v' -> rel xp xp' ->
    same_outcome ls_rel (line_search policy evaluate gradient P x fx g v step xp) (line_search policy evaluate' gradient' P x' fx g' v' step xp').
  Proof. intros Hx Hgg Hv Hxp. destruct policy; [now apply search_rel|now apply search_rel|reflexivity]. Qed.

  Section Memory.
    Variable mem_size : nat.
    Variables ms ms' my my' : list (list R).
    Variable mys : list R.
    Hypothesis Hms : Forall2 rel ms ms'.
    Hypothesis Hmy : Forall2 rel my my'.
    Lemma loop1_rel j v v' al k : rel v v' ->
      same_outcome (fun a b => fst (fst b) = fst (fst a) /\ rel (snd (fst a)) (snd (fst b)) /\ snd b = snd a) (loop1 mem_size ms my mys (j, v, al) k) (loop1 mem_size ms' my' mys (j, v', al) k).
    Proof.
      intros Hv. unfold loop1. apply same_bind. intros i _. eapply orel_bind; [eapply vget_rel; exact Hms|]. intros a a' _ _ Ha.
      eapply orel_bind; [eapply vget_rel; exact Hmy|]. intros b b' _ _ Hb. apply same_bind. intros ys _. rewrite (rel_dotM Hs Ha Hv). apply same_bind. intros sd _.
      eapply orel_bind; [apply (rel_add Hs Hv); apply (rel_vscale Hs _ Hb)|]. intros u u' _ _ Hu. cbn. auto.
    Qed.
    Lemma loop2_rel al j v v' k : rel v v' ->
      same_outcome (fun a b => fst b = fst a /\ rel (snd a) (snd b)) (loop2 mem_size ms my mys al (j, v) k) (loop2 mem_size ms' my' mys al (j, v') k).
    Proof.
      intros Hv. unfold loop2. eapply orel_bind; [eapply vget_rel; exact Hms|]. intros a a' _ _ Ha.
      eapply orel_bind; [eapply vget_rel; exact Hmy|]. intros b b' _ _ Hb. apply same_bind. intros ys _. rewrite (rel_dotM Hs Hb Hv). apply same_bind. intros sd _.
      apply same_bind. intros alpha _.
      eapply orel_bind; [apply (rel_add Hs Hv); apply (rel_vscale Hs _ Ha)|]. intros u u' _ _ Hu. apply same_bind. intros i _. cbn. auto.
    Qed.
    Lemma eq_list {A} (l : list A) : Forall2 eq l l.
    Proof. induction l; constructor; auto. Qed.
    Lemma direction_rel bound end_ ys yy g g' : rel g g' -> same_outcome rel (new_direction mem_size ms my mys bound end_ ys yy g) (new_direction mem_size ms' my' mys bound end_ ys yy g').
    Proof.
      intros H. unfold new_direction. eapply orel_bind.
      - apply (@orel_foldM _ _ _ _ (fun (a b : nat * list R * list (nat * R)) => fst (fst b) = fst (fst a) /\ rel (snd (fst a)) (snd (fst b)) /\ snd b = snd a) eq (loop1 mem_size ms my mys) (loop1 mem_size ms' my' mys) (seq 0 bound) (seq 0 bound) (eq_list _)).
        + intros ((j, v), al) ((j', v'), al') k k' <- (E1 & E2 & E3). cbn in E1, E2, E3. subst. now apply loop1_rel.
        + cbn. split; [reflexivity|]. split; [|reflexivity]. now apply (rel_map Hs).
      - intros ((j, v), al) ((j', v'), al') _ _ (E1 & E2 & E3). cbn in E1, E2, E3. subst. eapply orel_bind.
        + apply (@orel_foldM _ _ _ _ (fun (a b : nat * list R) => fst b = fst a /\ rel (snd a) (snd b)) eq (loop2 mem_size ms my mys al) (loop2 mem_size ms' my' mys al) (seq 0 bound) (seq 0 bound) (eq_list _)).
          * intros (i, u) (i', u') k k' <- (F1 & F2). cbn in F1, F2. subst. now apply loop2_rel.
          * cbn. split; [reflexivity|]. now apply (rel_vscale Hs).
        + intros (i, u) (i', u') _ _ (F1 & F2). exact F2.
    Qed.
  End Memory.

  Definition st_rel (a b : lbfgs_state) : Prop :=
    rel (lb_x a) (lb_x b) /\ lb_fx b = lb_fx a /\ rel (lb_g a) (lb_g b) /\ rel (lb_d a) (lb_d b) /\ lb_step b = lb_step a /\ lb_k b = lb_k a /\ lb_end b = lb_end a /\
    Forall2 rel (lb_s a) (lb_s b) /\ Forall2 rel (lb_y a) (lb_y b) /\ lb_ys b = lb_ys a /\ lb_pfx b = lb_pfx a.
  Variable linesearch linesearch' : list R -> R -> list R -> list R -> R -> list R -> outcome ls_result.
  Hypothesis Hls : forall x x' fx g g' v v' step xp xp', rel x x' -> rel g g' -> rel v v' -> rel xp xp' ->
    same_outcome ls_rel (linesearch x fx g v step xp) (linesearch' x' fx g' v' step xp').
  Variable mem_size past max_iter : nat.
  Variable tol delta : R.

  Lemma converged_rel x x' g g' : rel x x' -> rel g g' -> converged tol x' g' = converged tol x g.
  Proof. intros Hx Hgg. unfold converged. now rewrite (rel_norm2 Hs Hx), (rel_norm2 Hs Hgg). Qed.
  Lemma set_col_rel M M' j v v' : Forall2 rel M M' -> rel v v' -> same_outcome (Forall2 rel) (set_colM M j v) (set_colM M' j v').
  Proof. intros H Hv. unfold set_colM. rewrite (forall2_len H). destruct (_ <? _)%nat; [|exact I]. now apply forall2_set_nth. Qed.
  Definition turn_rel (a b : list R + lbfgs_state) : Prop := match a, b with inl x, inl x' => rel x x' | inr u, inr u' => st_rel u u' | _, _ => False end.
  Lemma turn_step st st' : st_rel st st' -> same_outcome turn_rel (lbfgs_turn linesearch mem_size past max_iter tol delta st) (lbfgs_turn linesearch' mem_size past max_iter tol delta st').
  Proof.
    intros (Hx & Hfx & Hgg & Hd & Hstep & Hk & Hend & HS & HY & Hys & Hpfx). unfold lbfgs_turn. rewrite Hfx, Hstep, Hk, Hend, Hys, Hpfx.
    eapply orel_bind; [apply Hls; [exact Hx|exact Hgg|exact Hd|exact Hx]|]. intros r r' _ _ (Rc & Rx & Rf & Rg & Rs). rewrite Rc. destruct (ls_code r) as [c|]; [|exact Hx].
    rewrite (converged_rel Rx Rg). destruct (converged _ _ _); [exact Rx|]. rewrite Rf. apply same_bind. intros [pfx|] _; [|exact Rx].
    destruct (_ && _); [exact Rx|].
    eapply orel_bind; [apply (rel_sub Hs Rx Hx)|]. intros ds ds' _ _ Hds. eapply orel_bind; [eapply set_col_rel; [exact HS|exact Hds]|]. intros ms ms' _ _ Hms.
    eapply orel_bind; [apply (rel_sub Hs Rg Hgg)|]. intros dy dy' _ _ Hdy. eapply orel_bind; [eapply set_col_rel; [exact HY|exact Hdy]|]. intros my my' _ _ Hmy.
    rewrite (rel_dotM Hs Hdy Hds), (rel_dotM Hs Hdy Hdy). apply same_bind. intros ys _. apply same_bind. intros yy _. apply same_bind. intros mys _. apply same_bind. intros e _.
    eapply orel_bind; [apply direction_rel; [exact Hms|exact Hmy|exact Rg]|]. intros v v' _ _ Hv. cbn. unfold st_rel. cbn. auto 12.
  Qed.
  Lemma loop_rel fuel : forall st st', st_rel st st' -> same_outcome rel (lbfgs_loop linesearch mem_size past max_iter tol delta fuel st) (lbfgs_loop linesearch' mem_size past max_iter tol delta fuel st').
  Proof.
    induction fuel as [|fuel IH]; intros st st' H; cbn [lbfgs_loop]; [exact I|]. eapply orel_bind; [apply turn_step, H|].
    intros [x|u] [x'|u'] _ _ HT; try contradiction; [exact HT|now apply IH].
  Qed.
  Lemma lbfgs_rel fuel ms ms' my my' mys pfx x x' : Forall2 rel ms ms' -> Forall2 rel my my' -> rel x x' ->
    same_outcome (reordered_option d s) (lbfgs evaluate gradient linesearch mem_size past max_iter tol delta fuel (ms, my, mys) pfx x)
                            (lbfgs evaluate' gradient' linesearch' mem_size past max_iter tol delta fuel (ms', my', mys) pfx x').
  Proof.
    intros Hms Hmy Hx. unfold lbfgs. rewrite (He Hx). apply same_bind. intros fx _. eapply orel_bind; [apply Hg, Hx|]. intros g g' _ _ Hgg. apply same_bind. intros p _.
    rewrite (converged_rel Hx Hgg). destruct (converged _ _ _); [exact I|]. pose proof (rel_map Hs Ropp Hgg) as Hd. rewrite (rel_norm2 Hs Hd).
    eapply orel_bind; [apply loop_rel; unfold st_rel; cbn; auto 12|]. intros a b _ _ Hab. exact Hab.
  Qed.
End Lbfgs.
