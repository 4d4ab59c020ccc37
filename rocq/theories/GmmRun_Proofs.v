(** Whole runs of expectation maximisation. *)
From Coq Require Import Reals Lra String.
From Verif Require Import Base Common_Model KDReal_Proofs Impurity_Model Impurity_Spec Impurity_Proofs Vec MathFun_Model MathFun_Proofs Stats_Model Stats_Spec Stats_Proofs LossSoftmax_Proofs
  Linear_Model LinSolve_Proofs Linear_Proofs NB_Model NB_Spec NB_Proofs Decomp_Model Decomp_Spec Decomp_Proofs DecompPca_Proofs Gmm_Model Det_Spec Gmm_Spec Chol_Proofs Gmm_Proofs GmmEm_Proofs.
Local Open Scope R_scope.
Set Implicit Arguments.

Definition draw_ok (n K : nat) (draw : list (list R)) : Prop := shape n K draw /\ (forall r a, In r draw -> In a r -> 0 <= a) /\ forall r, In r draw -> 0 < total r.
Lemma draw_resp n K draw : draw_ok n K draw -> resp_ok n K (map (fun r => map (fun a => a / Rsum r) r) draw).
Proof.
  intros ((L & S) & P & T). split; [|split].
  - split; [now rewrite map_length|]. intros r Hr. apply in_map_iff in Hr. destruct Hr as (r0 & <- & H). rewrite map_length. auto.
  - intros r a Hr Ha. apply in_map_iff in Hr. destruct Hr as (r0 & <- & H). apply in_map_iff in Ha. destruct Ha as (a0 & <- & Ha). rewrite Rsum_total. specialize (T r0 H). specialize (P r0 a0 H Ha). apply Rmult_le_pos; [auto|]. left. now apply Rinv_0_lt_compat.
  - intros r Hr. apply in_map_iff in Hr. destruct Hr as (r0 & <- & H). rewrite Rsum_total. specialize (T r0 H). unfold Rdiv. rewrite total_scal_r, map_id. field. lra.
Qed.

Section Runs.
  Variables (eps reg tol : R) (ct : string) (K d : nat) (X : list (list R)).
  Hypothesis Pe : 0 < eps.
  Hypothesis Pg : 0 < reg.
  Hypothesis PK : (0 < K)%nat.
  Hypothesis PX : X <> [].
  Hypothesis W : width d X.
  Hypothesis Us : usable ct K.
  Definition step (q p : params) : Prop := new_params eps reg ct K d X (map (posterior K d q) X) = Ok p.
  Lemma new_params_ok resp : resp_ok (length X) K resp -> exists p, new_params eps reg ct K d X resp = Ok p /\ valid K d p.
  Proof.
    intro HR. destruct Us as [->|(-> & E1)].
    - exists (full_params eps reg K d X resp). split; [now apply new_params_full|now apply full_params_valid].
    - exists (tied_params eps reg K d X resp). split; [now apply new_params_tied|now apply tied_params_valid].
  Qed.
  Lemma step_ok q : valid K d q -> exists p, step q p /\ valid K d p.
  Proof. intro V. apply new_params_ok. apply responsibilities_ok, posterior_responsibilities; auto. Qed.
  Definition reached (lb : option R) (p : params) : Prop := match lb with None => True | Some l => exists q, valid K d q /\ l = loglik K d q X /\ step q p end.
  Lemma em_spec iters : forall lb p, valid K d p -> reached lb p -> exists conv lb' p', em eps reg tol ct K d X iters lb p = Ok (conv, lb', p') /\ valid K d p' /\ reached lb' p' /\
    (conv = false -> iters <> 0%nat -> lb' <> None) /\
    (conv = true -> exists q0 q, valid K d q0 /\ valid K d q /\ step q0 q /\ step q p' /\ lb' = Some (loglik K d q X) /\ Rabs (loglik K d q X - loglik K d q0 X) < tol).
  Proof.
    induction iters as [|n IH]; intros lb p V RC.
    - exists false, lb, p. cbn [em]. split; [reflexivity|]. split; [auto|]. split; [auto|]. split; [congruence|discriminate].
    - cbn [em]. destruct (@e_step_spec ct K d p X Us PK V W) as (lr & Ee & El). rewrite Ee. cbn [bind]. unfold m_step. rewrite El. fold (loglik K d p X). destruct (step_ok V) as (p' & Ep & V'). unfold step in Ep. rewrite Ep. cbn [bind].
      assert (RC' : reached (Some (loglik K d p X)) p') by (exists p; auto).
      destruct lb as [l|].
      + destruct (Rltb (Rabs (loglik K d p X - l)) tol) eqn:C.
        * apply Rltb_true in C. exists true, (Some (loglik K d p X)), p'. split; [reflexivity|]. split; [auto|]. split; [auto|]. split; [discriminate|]. intros _. destruct RC as (q & Vq & -> & S). exists q, p. auto 10.
        * destruct (IH _ _ V' RC') as (conv & lb' & p2 & E2 & V2 & R2 & N2 & C2). exists conv, lb', p2. split; [exact E2|]. split; [auto|]. split; [auto|]. split; [|auto]. intros Ec _. destruct n; [cbn in E2; injection E2 as <- <- <-; congruence|]. apply N2; [auto|lia].
      + destruct (IH _ _ V' RC') as (conv & lb' & p2 & E2 & V2 & R2 & N2 & C2). exists conv, lb', p2. split; [exact E2|]. split; [auto|]. split; [auto|]. split; [|auto]. intros Ec _. destruct n; [cbn in E2; injection E2 as <- <- <-; congruence|]. apply N2; [auto|lia].
  Qed.
  Lemma em_no_tol iters : tol <= 0 -> forall lb p conv lb' p', em eps reg tol ct K d X iters lb p = Ok (conv, lb', p') -> conv = false.
  Proof.
    intro T. induction iters as [|n IH]; intros lb p conv lb' p' E; [cbn in E; congruence|]. cbn [em] in E. destruct (e_step ct p K d X) as [(l, lr)| | |]; try discriminate. cbn [bind] in E. destruct (m_step _ _ _ _ _ _ _) as [p1| | |]; try discriminate. cbn [bind] in E.
    destruct lb as [l0|]; [|eauto]. destruct (Rltb (Rabs (l - l0)) tol) eqn:C; [|eauto]. apply Rltb_true in C. pose proof (Rabs_pos (l - l0)). lra.
  Qed.
  Lemma em_short iters p conv lb' p' : (iters <= 1)%nat -> em eps reg tol ct K d X iters None p = Ok (conv, lb', p') -> conv = false.
  Proof.
    intros Hi E. destruct iters as [|[|n]]; [cbn in E; congruence| |lia]. cbn [em] in E. destruct (e_step ct p K d X) as [(l, lr)| | |]; try discriminate. cbn [bind] in E. destruct (m_step _ _ _ _ _ _ _) as [p1| | |]; try discriminate. cbn [bind] in E. congruence.
  Qed.

  Variables (draws : nat -> list (list R)) (max_iter : nat).
  Lemma init_ok i : draw_ok (length X) K (draws i) -> exists p, initialize_parameters (draws i) "random" eps reg ct K d X = Ok p /\ valid K d p.
  Proof. intro D. unfold initialize_parameters. cbn [String.eqb Ascii.eqb Bool.eqb]. apply new_params_ok. now apply draw_resp. Qed.
  Definition best_ok (b : bool * option R * params) : Prop := let '(c, lb, p) := b in (c = true -> lb <> None) /\ (lb <> None -> valid K d p /\ reached lb p).
  (** a run converges *)
  Definition converges (i : nat) : Prop := exists p0 lb p, initialize_parameters (draws i) "random" eps reg ct K d X = Ok p0 /\ em eps reg tol ct K d X max_iter None p0 = Ok (true, lb, p).
  Lemma em_inits_spec l : forall best, (forall i, In i l -> draw_ok (length X) K (draws i)) -> best_ok best ->
    exists b, em_inits draws "random" eps reg tol ct max_iter K d X l best = Ok b /\ best_ok b /\ (fst (fst b) = true <-> fst (fst best) = true \/ exists i, In i l /\ converges i).
  Proof.
    induction l as [|i l IH]; intros ((c, lb), p) D B.
    - eexists. split; [reflexivity|]. split; [auto|]. cbn. split; [auto|]. intros [H|(i & [] & _)]; auto.
    - cbn [em_inits]. destruct (init_ok (D i (or_introl eq_refl))) as (p0 & Ei & V0). rewrite Ei. cbn [bind]. destruct (@em_spec max_iter None p0 V0 I) as (conv & lb1 & p1 & E1 & V1 & R1 & N1 & C1). rewrite E1. cbn [bind].
      assert (CV : conv = true <-> converges i).
      { split; [intros ->; exists p0, lb1, p1; auto|]. intros (q0 & l2 & q & E0 & E2). rewrite Ei in E0. injection E0 as <-. rewrite E1 in E2. now injection E2. }
      assert (NC : conv = true -> lb1 <> None) by (intro H; destruct (C1 H) as (q0 & q & _ & _ & _ & _ & -> & _); discriminate).
      assert (B' : best_ok (if better lb1 lb then (c || conv, lb1, p1) else (c || conv, lb, p))).
      { destruct B as (B1 & B2). unfold better. destruct lb as [m|].
        - destruct lb1 as [l1|].
          + destruct (Rltb m l1); split; intros; try discriminate; auto.
          + split; auto. intros _. discriminate.
        - assert (c = false) by (destruct c; [exfalso; now apply B1|auto]). subst c. cbn [orb]. split; auto. }
      destruct (IH _ (fun j Hj => D j (or_intror Hj)) B') as (b & Eb & Bb & Cb). exists b. split; [exact Eb|]. split; [exact Bb|]. rewrite Cb.
      assert (F : fst (fst (if better lb1 lb then (c || conv, lb1, p1) else (c || conv, lb, p))) = (c || conv)%bool) by (now destruct (better lb1 lb)). rewrite F. rewrite orb_true_iff, CV. cbn [fst].
      split; [intros [[H|H]|(j & Hj & H)]|intros [H|(j & [->|Hj] & H)]]; auto.
      + right. exists i. split; [now left|auto].
      + right. exists j. split; [now right|auto].
      + right. now exists j.
  Qed.
  Variables (num_init : nat) (m : gmm).
  Hypothesis KN : (K <= length X)%nat.
  Hypothesis D : forall i, (i < num_init)%nat -> draw_ok (length X) K (draws i).
  Let fit := gmm_fit draws "random" ct eps reg tol max_iter num_init K d m X.
  Lemma fit_spec : (fit = Throw RuntimeError /\ ~ exists i, (i < num_init)%nat /\ converges i) \/
    (exists i, (i < num_init)%nat /\ converges i) /\ exists p q, valid K d q /\ step q p /\ valid K d p /\ fit = Ok (Gmm p (m_precisions m ++ map (outer d) (g_precisions_chol p)) (loglik K d q X)).
  Proof.
    unfold fit, gmm_fit. destruct (Nat.ltb_spec (length X) K); [lia|]. destruct (@em_inits_spec (seq 0 num_init) (false, None, params0)) as (((c, lb), p) & E & (B1 & B2) & C).
    { intros i Hi. apply in_seq in Hi. apply D. lia. } { split; [discriminate|congruence]. }
    rewrite E. cbn [bind fst] in *. destruct c; cbn [negb].
    - right. split. { destruct C as (C & _). destruct (C eq_refl) as [H1|(i & Hi & H1)]; [discriminate|]. apply in_seq in Hi. exists i. split; [lia|auto]. }
      specialize (B1 eq_refl). destruct (B2 B1) as (V & RC). destruct lb as [l|]; [|congruence]. destruct RC as (q & Vq & -> & S). exists p, q. split; [auto|]. split; [auto|]. split; [auto|].
      destruct (@e_step_spec ct K d p X Us PK V W) as (lr & Ee & _). rewrite Ee. reflexivity.
    - left. split; [reflexivity|]. intros (i & Hi & H1). destruct C as (_ & C). assert (false = true); [|discriminate]. apply C. right. exists i. split; [apply in_seq; lia|auto].
  Qed.
End Runs.

(** * One component *)
Lemma posterior_one d p x : valid 1 d p -> posterior 1 d p x = [1].
Proof. intro V. unfold posterior, normalise, terms. cbn [seq map]. unfold total. cbn [fold_right]. pose proof (@term_pos 1 d p x 0 V ltac:(lia)). f_equal. field. lra. Qed.
Lemma draw_one n draw : draw_ok n 1 draw -> map (fun r => map (fun a => a / Rsum r) r) draw = repeat [1] n.
Proof.
  intros ((L & S) & P & T). rewrite <- L. clear L. induction draw as [|r draw IH]; [reflexivity|]. cbn [map length repeat]. f_equal; [|apply IH; intros; auto using in_cons; apply S || apply T || eapply P; eauto using in_cons].
  specialize (S r (or_introl eq_refl)). specialize (T r (or_introl eq_refl)). rewrite <- Rsum_total in T. destruct r as [|a [|b r]]; try discriminate. cbn [map]. rewrite Rsum_total in *. unfold total in *. cbn [fold_right] in *. f_equal. field. lra.
Qed.
Lemma map_posterior_one d p X : valid 1 d p -> map (posterior 1 d p) X = repeat [1] (length X).
Proof. intro V. induction X as [|x X IH]; [reflexivity|]. cbn [map length repeat]. now rewrite posterior_one, IH by auto. Qed.
Lemma one_converges eps reg tol ct d X draws max_iter i : 0 < eps -> 0 < reg -> 0 < tol -> X <> [] -> width d X -> usable ct 1 -> (2 <= max_iter)%nat -> draw_ok (length X) 1 (draws i) -> converges eps reg tol ct 1 d X draws max_iter i.
Proof.
  intros Pe Pg Pt PX W Us M D. destruct (@init_ok eps reg ct 1 d X Pe Pg (Nat.lt_0_1) PX W Us draws i D) as (p0 & Ei & V0). assert (Ei' := Ei). unfold initialize_parameters in Ei'. cbn [String.eqb Ascii.eqb Bool.eqb] in Ei'. rewrite draw_one with (n := length X) in Ei' by auto.
  destruct max_iter as [|[|n]]; [lia|lia|]. destruct (@e_step_spec ct 1 d p0 X Us Nat.lt_0_1 V0 W) as (lr & Ee & El). rewrite map_posterior_one in El by auto.
  exists p0, (Some (loglik 1 d p0 X)), p0. split; [auto|]. cbn [em]. rewrite Ee. cbn [bind]. unfold m_step. rewrite El, Ei'. cbn [bind]. rewrite Ee. cbn [bind]. rewrite El, Ei'. cbn [bind]. rewrite Rminus_diag_eq, Rabs_R0 by reflexivity.
  assert (Rltb 0 tol = true) as -> by (now apply Rltb_true). reflexivity.
Qed.
