(** C51: Gaussian mixtures.  The theorems are about [fit], [predict], [predict_prob], [get_covariance] and
    [get_precisions]; the specification of a mixture is in Gmm_Spec. *)
From Coq Require Import Reals Lra String.
From Verif Require Import Base Common_Model KDReal_Proofs Impurity_Model Impurity_Spec Impurity_Proofs Vec MathFun_Model MathFun_Proofs Stats_Model Stats_Spec Stats_Proofs LossSoftmax_Proofs
  Linear_Model LinSolve_Proofs Linear_Proofs NB_Model NB_Spec NB_Proofs Decomp_Model Decomp_Spec Decomp_Proofs DecompPca_Proofs Gmm_Model Det_Spec Gmm_Spec Chol_Proofs Gmm_Proofs GmmEm_Proofs GmmRun_Proofs.
Local Open Scope R_scope.
Set Implicit Arguments.

Definition weights (m : gmm) : list R := g_weights (m_params m).
Definition means (m : gmm) : list (list R) := g_means (m_params m).
Definition covariances (m : gmm) : list (list (list R)) := g_covariances (m_params m).
Definition new_gmm : gmm := Gmm params0 [] 0.

(** ** From the invariants of the proofs to the specification *)
Lemma nth_outer d K (Ps : list (list (list R))) k : length Ps = K -> (k < K)%nat -> nth k (map (outer d) Ps) [] = outer d (nth k Ps []).
Proof. intros L H. subst K. now rewrite (nth_map (outer d) Ps [] []). Qed.
Lemma component_spec d mu A P : component d mu A P -> length mu = d /\ positive_definite d A /\ inverse_of d A (outer d P).
Proof.
  intros (L & Q & B & U & E & ->). split; [auto|]. split.
  - split; [exact Q|]. split; [now apply bsym_symmetric|]. exact (chol_posdef Q B E).
  - split; [exact (@outer_shape d U)|]. intros z Lz. exact (@outer_inverse d A U Q B E z Lz).
Qed.
Lemma valid_mixture K d p : valid K d p -> mixture K d (g_weights p) (g_means p) (g_covariances p) (map (outer d) (g_precisions_chol p)).
Proof.
  intros (L1 & L2 & L3 & L4 & V). unfold mixture. rewrite map_length. split; [auto|]. split; [auto|]. split; [auto|]. split; [auto|]. intros k Hk. destruct (V k Hk) as (Pw & C). pose proof (@nth_outer d K (g_precisions_chol p) k L4 Hk) as EO. unfold matrix in *. rewrite EO. destruct (component_spec C) as (A & B & D). auto.
Qed.
Lemma terms_mixture K d p x : valid K d p -> terms K d p x = mixture_terms K d (g_weights p) (g_means p) (g_covariances p) (map (outer d) (g_precisions_chol p)) x.
Proof. intros (L1 & L2 & L3 & L4 & V). apply map_ext_in. intros k Hk. apply in_seq in Hk. unfold term. pose proof (@nth_outer d K (g_precisions_chol p) k L4 ltac:(lia)) as EO. unfold matrix in *. now rewrite EO. Qed.
Lemma entry_form d A a b : square d A -> (a < d)%nat -> (b < d)%nat -> entry A a b = dot (basis d a) (apply A (basis d b)).
Proof.
  intros (L & Wd) Ha Hb. rewrite dot_basis by (auto; unfold apply; now rewrite map_length). rewrite nth_apply, dot_comm, dot_basis by (auto; apply Wd, nth_In; lia). reflexivity.
Qed.
Lemma estimated_full eps reg K d X resp k : (0 < K)%nat -> width d X -> resp_ok (length X) K resp -> let p := full_params eps reg K d X resp in (k < K)%nat -> estimated eps reg d X resp k (gweight p k) (gmean p k) (gcov p k).
Proof.
  intros PK W HR p Hk. unfold p, gweight, gmean, gcov, full_params. cbn [g_weights g_means g_covariances]. rewrite !nth_seq_map by auto. assert (LM := mean_length eps resp W k). assert (Q : square d (cov_of eps reg d X resp k)) by (apply full_square; auto; exact (@resp_col_length K X resp HR k)).
  split; [reflexivity|]. split; [auto|]. split; [exact Q|]. split.
  - intros j Hj. rewrite <- (@dot_basis d j) by auto. rewrite (@dot_mean eps K d X resp PK W HR). unfold nk. f_equal. apply total_seq_ext. intros i Hi. rewrite dot_basis by (auto; apply W, nth_In; auto). reflexivity.
  - intros a b Ha Hb. rewrite (entry_form Q Ha Hb), (@cov_form eps reg K d X resp PK W HR) by apply basis_length. unfold nk. f_equal.
    + f_equal. apply total_seq_ext. intros i Hi. rewrite !dot_basis by (auto; apply W, nth_In; auto). reflexivity.
    + rewrite dot_basis, nth_basis by (auto using basis_length). destruct (a =? b)%nat; ring.
Qed.

Section Fit.
  Variables (eps reg tol : R) (ct : string) (K d : nat) (X : list (list R)) (draws : nat -> list (list R)) (max_iter num_init : nat) (m : gmm).
  Hypothesis Pe : 0 < eps.
  Hypothesis Pg : 0 < reg.
  Hypothesis PK : (0 < K)%nat.
  Hypothesis PX : X <> [].
  Hypothesis W : width d X.
  Hypothesis Us : ct = "full"%string \/ ct = "tied"%string /\ K = 1%nat.
  Hypothesis D : forall i, (i < num_init)%nat -> usable_draw (length X) K (draws i).

  (** Fitting raises [out_of_range] when there are fewer samples than components, and otherwise returns, or raises
      [runtime_error]: always for a tolerance that is not positive, fewer than two iterations, or no initialisation. *)
  Theorem C51_outcome : let fit := gmm_fit draws "random" ct eps reg tol max_iter num_init K d m X in
    ((length X < K)%nat -> fit = Throw OutOfRange) /\
    ((K <= length X)%nat -> fit = Throw RuntimeError \/ exists m', fit = Ok m') /\
    ((K <= length X)%nat -> tol <= 0 \/ (max_iter <= 1)%nat \/ num_init = 0%nat -> fit = Throw RuntimeError).
  Proof.
    intro fit. split; [|split].
    - intro H. unfold fit, gmm_fit. apply Nat.ltb_lt in H. now rewrite H.
    - intro H. destruct (@fit_spec eps reg tol ct K d X Pe Pg PK PX W Us draws max_iter num_init m H D) as [(E & _)|(_ & p & q & _ & _ & _ & E)]; [left; exact E|right]. eexists. exact E.
    - intros H T. destruct (@fit_spec eps reg tol ct K d X Pe Pg PK PX W Us draws max_iter num_init m H D) as [(E & _)|((i & Hi & (p0 & lb & p & _ & E)) & _)]; [exact E|]. exfalso. assert (true = false); [|discriminate].
      destruct T as [T|[T|T]]; [eapply em_no_tol|eapply em_short|lia]; eauto.
  Qed.

  (** What a fitted model holds.  The weights, means and covariances are a mixture, and for each component the precision
      [get_precisions] added is the inverse of its covariance; the parameters are estimated from the responsibilities
      that the mixture of the last iteration but one gives the samples; and the lower bound is the average log density
      of the samples under that mixture, not under the one returned. *)
  Theorem C51_fit : forall m', gmm_fit draws "random" ct eps reg tol max_iter num_init K d m X = Ok m' ->
    exists Bs ws mus As Bs0, mixture K d ws mus As Bs0 /\
      let density := mixture_terms K d ws mus As Bs0 in
      let resp := map (fun x => normalise (density x)) X in
      m_precisions m' = m_precisions m ++ Bs /\ mixture K d (weights m') (means m') (covariances m') Bs /\
      responsibilities (length X) K resp /\
      (forall k, (k < K)%nat -> nth k (weights m') 0 = (mass resp k + eps) / INR (length X)) /\
      (ct = "full"%string -> forall k, (k < K)%nat -> estimated eps reg d X resp k (nth k (weights m') 0) (nth k (means m') []) (nth k (covariances m') [])) /\
      m_lower_bound m' = avg (map (fun x => ln (total (density x))) X).
  Proof.
    intros m' E. assert (KN : (K <= length X)%nat) by (unfold gmm_fit in E; destruct (Nat.ltb_spec (length X) K); [discriminate|auto]).
    destruct (@fit_spec eps reg tol ct K d X Pe Pg PK PX W Us draws max_iter num_init m KN D) as [(E' & _)|(_ & p & q & Vq & S & V & E')]; [congruence|]. rewrite E in E'. injection E' as ->. unfold weights, means, covariances. cbn [m_params m_precisions m_lower_bound].
    exists (map (outer d) (g_precisions_chol p)), (g_weights q), (g_means q), (g_covariances q), (map (outer d) (g_precisions_chol q)). split; [now apply valid_mixture|]. set (density := mixture_terms K d (g_weights q) (g_means q) (g_covariances q) (map (outer d) (g_precisions_chol q))). set (resp := map (fun x => normalise (density x)) X).
    assert (ER : resp = map (posterior K d q) X) by (apply map_ext; intro x; unfold posterior; now rewrite terms_mixture by auto). assert (HR := posterior_responsibilities X PK Vq). rewrite <- ER in HR. assert (HO := responsibilities_ok HR).
    unfold step in S. rewrite <- ER in S.
    split; [reflexivity|]. split; [now apply valid_mixture|]. split; [exact HR|]. split; [|split].
    - intros k Hk. destruct Us as [->|(-> & ->)].
      + rewrite (@new_params_full eps reg K d X resp) in S by auto. injection S as <-. cbn [full_params g_weights]. now rewrite nth_seq_map.
      + rewrite (@new_params_tied eps reg 1 d X resp) in S by auto. injection S as <-. cbn [tied_params g_weights]. now rewrite nth_seq_map.
    - intros -> k Hk. rewrite (@new_params_full eps reg K d X resp) in S by auto. injection S as <-. exact (@estimated_full eps reg K d X resp k PK W HO Hk).
    - unfold loglik. f_equal. apply map_ext. intro x. now rewrite terms_mixture by auto.
  Qed.

  (** The weights are positive; they add up to 1 and K times [eps] over the number of samples, never to 1. *)
  Theorem C51_weights : forall m', gmm_fit draws "random" ct eps reg tol max_iter num_init K d m X = Ok m' ->
    length (weights m') = K /\ (forall w, In w (weights m') -> 0 < w) /\ total (weights m') = 1 + INR K * eps / INR (length X) /\ total (weights m') <> 1.
  Proof.
    intros m' E. destruct (C51_fit E) as (Bs & ws & mus & As & Bs0 & _ & H). cbv zeta in H. set (resp := map (fun x => normalise (mixture_terms K d ws mus As Bs0 x)) X) in H. destruct H as (_ & (LW & _ & _ & _ & M) & HR & Hw & _ & _).
    split; [auto|]. split. { intros w Hw'. apply In_nth with (d := 0) in Hw'. destruct Hw' as (k & Hk & <-). apply M. lia. }
    pose proof (INR_pos PX) as Pn. assert (PK' : 0 < INR K) by (now apply lt_0_INR).
    assert (T : total (weights m') = 1 + INR K * eps / INR (length X)).
    { rewrite (list_as_nths 0 (weights m')), LW. rewrite (total_seq_ext _ (fun k => nk eps resp k * / INR (length X))) by (intros k Hk; rewrite Hw by auto; reflexivity). rewrite total_scal_r, (@total_nk eps K X resp PK (responsibilities_ok HR)). field. lra. }
    split; [exact T|]. rewrite T. assert (0 < INR K * eps / INR (length X)) by (apply Rdiv_lt_0_compat; auto; now apply Rmult_lt_0_compat). lra.
  Qed.

  (** With full covariances, the mean of the mixture is the mean of the data: the weighted means of the components add up to it. *)
  Theorem C51_moments : forall m' j, gmm_fit draws "random" ct eps reg tol max_iter num_init K d m X = Ok m' -> ct = "full"%string -> (j < d)%nat ->
    total (map (fun k => nth k (weights m') 0 * entry (means m') k j) (seq 0 K)) = avg (map (fun x => nth j x 0) X).
  Proof.
    intros m' j E Ec Hj. destruct (C51_fit E) as (Bs & ws & mus & As & Bs0 & _ & H). cbv zeta in H. set (resp := map (fun x => normalise (mixture_terms K d ws mus As Bs0 x)) X) in H. destruct H as (_ & _ & HR & _ & He & _).
    pose proof (INR_pos PX) as Pn. unfold avg. rewrite map_length.
    rewrite (total_seq_ext _ (fun k => total (map (fun i => entry resp i k * entry X i j) (seq 0 (length X))) * / INR (length X))).
    2: { intros k Hk. destruct (He Ec k Hk) as (Ew & _ & _ & Em & _). unfold entry at 1. rewrite (Em j Hj), Ew. assert (0 < mass resp k) by (apply (mass_pos HR); auto; destruct X; [congruence|cbn; lia]). field. lra. }
    rewrite total_scal_r. unfold Rdiv. f_equal. rewrite total_swap. rewrite (total_rows [] (fun x => nth j x 0) X). apply total_seq_ext. intros i Hi. rewrite total_scal_r. etransitivity; [apply Rmult_eq_compat_r; exact (@resp_row_total K X resp PK (responsibilities_ok HR) i Hi)|]. unfold entry. ring.
  Qed.

  (** For a new model, the probabilities [predict_prob] gives a sample are the weighted densities of the components
      divided by their sum, positive numbers that add up to 1, and [predict] is the first component of largest weighted
      density; for every data set with as many features. *)
  Theorem C51_predict : forall m' Y, gmm_fit draws "random" ct eps reg tol max_iter num_init K d new_gmm X = Ok m' -> width d Y ->
    let density := mixture_terms K d (weights m') (means m') (covariances m') (m_precisions m') in
    gmm_predict_prob ct m' K d Y = Ok (map (fun y => normalise (density y)) Y) /\
    (forall y, In y Y -> total (normalise (density y)) = 1 /\ forall a, In a (normalise (density y)) -> 0 < a) /\
    exists ks, gmm_predict ct m' d Y = Ok (map INR ks) /\ Forall2 (fun y k => first_largest (density y) k) Y ks.
  Proof.
    intros m' Y E WY. assert (KN : (K <= length X)%nat) by (unfold gmm_fit in E; destruct (Nat.ltb_spec (length X) K); [discriminate|auto]).
    destruct (@fit_spec eps reg tol ct K d X Pe Pg PK PX W Us draws max_iter num_init new_gmm KN D) as [(E' & _)|(_ & p & q & Vq & S & V & E')]; [congruence|]. rewrite E in E'. injection E' as ->. unfold weights, means, covariances. cbn [m_params m_precisions m_lower_bound new_gmm app].
    set (density := mixture_terms K d (g_weights p) (g_means p) (g_covariances p) (map (outer d) (g_precisions_chol p))). assert (HD : forall y, density y = terms K d p y) by (intro y; unfold density; now rewrite terms_mixture by auto). split; [|split].
    - unfold gmm_predict_prob. cbn [m_params]. destruct (@e_step_spec ct K d p Y Us PK V WY) as (lr & -> & El). cbn [bind]. rewrite El. f_equal. apply map_ext. intro y. unfold posterior. now rewrite HD.
    - intros y _. rewrite HD. apply normalise_distribution; [now apply terms_ne|]. intros a Ha. exact (@terms_pos K d p y a V Ha).
    - unfold gmm_predict. cbn [m_params]. rewrite (wlp_spec Us V WY). cbn [bind]. destruct (@predict_of_spec (map (fun x => map ln (terms K d p x)) Y)) as (ks & Ek & F).
      { intros r Hr. apply in_map_iff in Hr. destruct Hr as (y & <- & _). intro E0. apply map_eq_nil in E0. exact (terms_ne d p y PK E0). }
      exists ks. split; [exact Ek|]. clear - F HD V. revert ks F. induction Y as [|y Y IH]; intros ks F; inversion F; subst; constructor; auto. rewrite HD.
      assert (EM : terms K d p y = map exp (map ln (terms K d p y))).
      { rewrite map_map. rewrite <- (map_id (terms K d p y)) at 1. apply map_ext_in. intros a Ha. symmetry. apply exp_ln. exact (@terms_pos K d p y a V Ha). }
      rewrite EM. apply first_largest_mono; [|assumption]. intros a b _ _ Hab. now apply exp_increasing.
  Qed.
End Fit.
Print Assumptions C51_outcome.
Print Assumptions C51_fit.
Print Assumptions C51_weights.
Print Assumptions C51_moments.
Print Assumptions C51_predict.

(** One component is always fitted, from two iterations on. *)
Theorem C51_one eps reg tol ct d X draws max_iter num_init m : 0 < eps -> 0 < reg -> 0 < tol -> X <> [] -> width d X -> ct = "full"%string \/ ct = "tied"%string ->
  (2 <= max_iter)%nat -> (1 <= num_init)%nat -> (forall i, (i < num_init)%nat -> usable_draw (length X) 1 (draws i)) ->
  exists m', gmm_fit draws "random" ct eps reg tol max_iter num_init 1 d m X = Ok m'.
Proof.
  intros Pe Pg Pt PX W Us M NI D. assert (Us' : usable ct 1) by (destruct Us; [now left|right; auto]). assert (KN : (1 <= length X)%nat) by (destruct X; [congruence|cbn; lia]).
  destruct (@fit_spec eps reg tol ct 1 d X Pe Pg Nat.lt_0_1 PX W Us' draws max_iter num_init m KN D) as [(_ & N)|(_ & p & q & _ & _ & _ & E)]; [|eexists; exact E].
  exfalso. apply N. exists 0%nat. split; [lia|]. apply one_converges; auto. apply D. lia.
Qed.
Print Assumptions C51_one.

(** The inverse is unique. *)
Lemma inverse_unique d A B C : inverse_of d A B -> inverse_of d A C -> length A = d -> B = C.
Proof.
  intros (SB & HB) (SC & HC) LA. assert (EQ : forall z, length z = d -> apply B z = apply C z).
  { intros z Lz. destruct (HC z Lz) as (H1 & _). rewrite <- H1 at 1. apply HB. unfold apply. rewrite map_length. apply SC. }
  destruct SB as (LB & WB). destruct SC as (LC & WC). apply (nth_ext B C [] []); [congruence|]. intros i Hi. rewrite LB in Hi. apply (@list_ext d); [apply WB, nth_In; lia|apply WC, nth_In; lia|]. intros j Hj.
  change (entry B i j = entry C i j). rewrite !(@entry_form d) by (auto; split; auto). now rewrite EQ by apply basis_length.
Qed.
(** Every iteration with full covariances: what it adds to the log likelihood.  [l] and [l'] are the average log densities
    of the samples before and after the update from the mixture [q] to [p], [Bs] and [Bs'] the inverses of the
    covariances.  The increase is at least the sum of terms that the corrections [reg] and [eps] bring in. *)
Theorem C51_ascent eps reg K d X resp0 q p l lr l' lr' Bs Bs' : 0 <= eps -> (0 < K)%nat -> X <> [] -> width d X ->
  responsibilities (length X) K resp0 -> new_params eps reg "full" K d X resp0 = Ok q ->
  e_step "full" q K d X = Ok (l, lr) -> m_step eps reg "full" K d X lr = Ok p -> e_step "full" p K d X = Ok (l', lr') ->
  (forall k, (k < K)%nat -> inverse_of d (nth k (g_covariances q) []) (Bs k)) -> (forall k, (k < K)%nat -> inverse_of d (nth k (g_covariances p) []) (Bs' k)) ->
  total (map (fun k =>
      let w := nth k (g_weights q) 0 in let w' := nth k (g_weights p) 0 in
      let mu := nth k (g_means q) [] in let mu' := nth k (g_means p) [] in
      reg / 2 * (INR (length X) * w') * (trace d (Bs' k) - trace d (Bs k)) +
      eps * ((ln (det d (nth k (g_covariances p) [])) - ln (det d (nth k (g_covariances q) []))) / 2 + (dot mu' (apply (Bs k) mu') - dot mu (apply (Bs k) mu)) / 2 - (ln w' - ln w))) (seq 0 K))
    <= INR (length X) * (l' - l).
Proof.
  intros Pe PK PX W HR0 E0 Ee Em Ee' HB HB'. destruct (new_params_full_inv reg Pe PK PX W HR0 E0) as (Eq & Vq).
  destruct (@e_step_spec "full" K d q X (or_introl eq_refl) PK Vq W) as (lr0 & Ex & El). rewrite Ee in Ex. injection Ex as El0 <-. unfold m_step in Em. rewrite El in Em. assert (HR := posterior_responsibilities X PK Vq).
  destruct (new_params_full_inv reg Pe PK PX W HR Em) as (Ep & Vp). destruct (@e_step_spec "full" K d p X (or_introl eq_refl) PK Vp W) as (lr1 & Ex' & El'). rewrite Ee' in Ex'. injection Ex' as El1 _.
  assert (TW : forall resp, resp_ok (length X) K resp -> total (g_weights (full_params eps reg K d X resp)) = (INR (length X) + INR K * eps) * / INR (length X)).
  { intros resp HO. unfold full_params. cbn [g_weights]. rewrite (total_seq_ext _ (fun k => nk eps resp k * / INR (length X))) by (intros; reflexivity). rewrite total_scal_r, (@total_nk eps K X resp PK HO). reflexivity. }
  pose proof (@ascent eps reg K d X q p Pe PK PX W Vq Em) as A. rewrite Eq in A at 1. rewrite Ep in A at 1. rewrite !TW in A by (now apply responsibilities_ok). specialize (A eq_refl). unfold loglik in A. rewrite <- El0, <- El1 in A.
  eapply Rle_trans; [|exact A]. apply Req_le. apply total_seq_ext. intros k Hk. cbv zeta. pose proof (INR_pos PX) as Pn.
  assert (INVq : Bs k = gprec d q k). { destruct Vq as (_ & _ & _ & _ & VK). destruct (VK k Hk) as (_ & C). destruct (component_spec C) as (_ & (S & _) & I). eapply inverse_unique; [apply HB, Hk|exact I|apply S]. }
  assert (INVp : Bs' k = gprec d p k). { destruct Vp as (_ & _ & _ & _ & VK). destruct (VK k Hk) as (_ & C). destruct (component_spec C) as (_ & (S & _) & I). eapply inverse_unique; [apply HB', Hk|exact I|apply S]. }
  rewrite INVq, INVp. unfold gain, gcov, gmean, gweight. do 3 f_equal. rewrite Ep at 1. unfold full_params. cbn [g_weights]. rewrite nth_seq_map by auto. unfold nk. field. lra.
Qed.
Print Assumptions C51_ascent.
(** Without these corrections an iteration never lowers the likelihood. *)
Theorem C51_monotone K d X resp0 q p l lr l' lr' : (0 < K)%nat -> X <> [] -> width d X ->
  responsibilities (length X) K resp0 -> new_params 0 0 "full" K d X resp0 = Ok q ->
  e_step "full" q K d X = Ok (l, lr) -> m_step 0 0 "full" K d X lr = Ok p -> e_step "full" p K d X = Ok (l', lr') -> l <= l'.
Proof.
  intros PK PX W HR0 E0 Ee Em Ee'. destruct (new_params_full_inv 0 (Rle_refl 0) PK PX W HR0 E0) as (Eq & Vq).
  destruct (@e_step_spec "full" K d q X (or_introl eq_refl) PK Vq W) as (lr0 & Ex & El). rewrite Ee in Ex. injection Ex as El0 <-. assert (Em' := Em). unfold m_step in Em'. rewrite El in Em'.
  destruct (new_params_full_inv 0 (Rle_refl 0) PK PX W (posterior_responsibilities X PK Vq) Em') as (Ep & Vp).
  pose proof (@C51_ascent 0 0 K d X resp0 q p l lr l' lr' (gprec d q) (gprec d p) (Rle_refl 0) PK PX W HR0 E0 Ee Em Ee') as A. cbv zeta in A.
  assert (I : forall r, valid K d r -> forall k, (k < K)%nat -> inverse_of d (nth k (g_covariances r) []) (gprec d r k)).
  { intros r (_ & _ & _ & _ & VK) k Hk. destruct (VK k Hk) as (_ & C). destruct (component_spec C) as (_ & _ & H). exact H. }
  specialize (A (I q Vq) (I p Vp)). rewrite (total_seq_ext _ (fun _ => 0)) in A by (intros; lra). rewrite total_const in A. pose proof (INR_pos PX) as Pn. nra.
Qed.
Print Assumptions C51_monotone.

(** ** What fails *)
(** Tied covariances with several components are read out of bounds: the vector of log determinants has one entry. *)
Theorem C51_tied_refuted eps reg tol K d X draws max_iter num_init m : 0 < eps -> 0 < reg -> (2 <= K <= length X)%nat -> width d X -> (1 <= max_iter)%nat -> (1 <= num_init)%nat ->
  usable_draw (length X) K (draws 0%nat) -> gmm_fit draws "random" "tied" eps reg tol max_iter num_init K d m X = UB.
Proof.
  intros Pe Pg (K2 & KN) W M NI D. assert (PX : X <> []) by (destruct X; [cbn in KN; lia|discriminate]). assert (PK : (0 < K)%nat) by lia. unfold gmm_fit. destruct (Nat.ltb_spec (length X) K); [lia|].
  destruct num_init as [|ni]; [lia|]. cbn [seq em_inits]. unfold initialize_parameters. cbn [String.eqb Ascii.eqb Bool.eqb]. rewrite (@new_params_tied eps reg K d X) by (auto; now apply draw_resp). cbn [bind].
  destruct max_iter as [|mi]; [lia|]. cbn [em]. set (resp := map _ (draws 0%nat)). assert (HO : resp_ok (length X) K resp) by (now apply draw_resp). unfold e_step, estimate_weighted_log_prob. cbn [tied_params g_precisions_chol existsb].
  destruct (@tied_ok eps reg K d X resp Pe Pg PK PX W HO) as (Q & B & PD). destruct (chol_complete Q B PD) as (U & EU). assert (EP : prec_of d (tied_of eps reg K d X resp) = map (fun j => back_solve U (basis d j)) (seq 0 d)) by (unfold prec_of; now rewrite EU). rewrite EP.
  pose proof (factor_length d U) as FL. rewrite FL, Nat.eqb_refl. cbn [negb orb]. unfold estimate_log_prob. cbn [tied_params g_means].
  rewrite (mapM_Ok _ (fun x => map (fun i => Rsum (map (fun c => sq (dot x c - dot (mean_of eps d X resp i) c)) (map (fun j => back_solve U (basis d j)) (seq 0 d)))) (seq 0 K))).
  2: { intros x Hx. rewrite map_length, seq_length. apply mapM_Ok. intros i Hi. apply in_seq in Hi. rewrite (@vget_Ok (list R) _ _ []) by (rewrite map_length, seq_length; lia). cbn [bind]. rewrite nth_seq_map by lia. reflexivity. }
  cbn [bind]. rewrite !map_length, seq_length. cbn [length]. destruct (Nat.eqb_spec 1 K); [lia|]. reflexivity.
Qed.
Print Assumptions C51_tied_refuted.
(** Any other kind of covariance, or of initialisation, is not rejected. *)
Theorem C51_arguments_refuted eps reg tol ct init K d X draws max_iter num_init m : (K <= length X)%nat -> (1 <= num_init)%nat ->
  (init <> "random"%string \/ ct <> "full"%string /\ ct <> "tied"%string) -> gmm_fit draws init ct eps reg tol max_iter num_init K d m X = UB.
Proof.
  intros KN NI H. unfold gmm_fit. destruct (Nat.ltb_spec (length X) K); [lia|]. destruct num_init as [|ni]; [lia|]. cbn [seq em_inits]. unfold initialize_parameters.
  destruct (String.eqb_spec init "random"); [|reflexivity]. destruct H as [H|(H1 & H2)]; [congruence|]. unfold new_params, estimate_parameters. apply String.eqb_neq in H1. apply String.eqb_neq in H2. rewrite H1, H2. reflexivity.
Qed.
Print Assumptions C51_arguments_refuted.
(** Predicting with a model that has not been fitted. *)
Theorem C51_unfitted_refuted : forall Y d, Y <> [] -> gmm_predict "full" new_gmm d Y = UB.
Proof.
  intros Y d PY. unfold gmm_predict, estimate_weighted_log_prob, estimate_log_prob. cbn [new_gmm m_params params0 g_precisions_chol existsb g_means length seq mapM map].
  rewrite (mapM_Ok _ (fun _ => [])) by reflexivity. cbn [bind negb Nat.eqb g_weights map length]. destruct Y as [|y Y]; [congruence|]. reflexivity.
Qed.
Print Assumptions C51_unfitted_refuted.
(** Without regularisation, data that have the value 0 throughout cannot be fitted. *)
Theorem C51_unregularised_refuted eps tol K d n draws max_iter num_init m : (1 <= K <= n)%nat -> (1 <= d)%nat -> (1 <= num_init)%nat -> usable_draw n K (draws 0%nat) ->
  gmm_fit draws "random" "full" eps 0 tol max_iter num_init K d m (repeat (repeat 0 d) n) = Throw RuntimeError.
Proof.
  intros (K1 & KN) D1 NI D. unfold gmm_fit. rewrite repeat_length. destruct (Nat.ltb_spec n K); [lia|]. destruct num_init as [|ni]; [lia|]. cbn [seq em_inits]. unfold initialize_parameters. cbn [String.eqb Ascii.eqb Bool.eqb].
  set (resp := map _ (draws 0%nat)). set (X := repeat (repeat 0 d) n). assert (LX : length X = n) by apply repeat_length. assert (W : width d X) by (intros x Hx; apply repeat_spec in Hx; subst x; apply repeat_length). assert (HO : resp_ok (length X) K resp) by (rewrite LX; now apply draw_resp).
  unfold new_params. destruct (estimate_parameters eps 0 "full" K d X resp) as ((cs, ms), ns) eqn:EE. pose proof (@estimate_means eps 0 K d X resp "full") as (E1 & E2). rewrite EE in E1, E2. cbn [fst snd] in E1, E2. subst ms ns.
  assert (C : cs = map (cov_of eps 0 d X resp) (seq 0 K)).
  { unfold estimate_parameters in EE. cbn [String.eqb Ascii.eqb Bool.eqb] in EE. injection EE as <- Em En. rewrite Em, En. apply map_ext_in. intros k Hk. apply in_seq in Hk. unfold cov_of. rewrite !nth_seq_map by lia. reflexivity. }
  subst cs. unfold compute_precision_cholesky. rewrite (@vget_Ok matrix _ _ []) by (rewrite map_length, seq_length; lia). cbn [bind]. rewrite nth_seq_map by lia. assert (Q : square d (cov_of eps 0 d X resp 0)) by (apply full_square; auto; solve [exact (@resp_col_length K X resp HO 0)|now apply mean_length]).
  rewrite (proj1 Q). destruct K as [|K']; [lia|]. cbn [seq map mapM]. assert (N : precision_chol d (cov_of eps 0 d X resp 0) = Throw RuntimeError); [|now rewrite N].
  unfold precision_chol. destruct d as [|d']; [lia|]. assert (Z : entry (cov_of eps 0 (S d') X resp 0) 0 0 = 0).
  { rewrite (@entry_form (S d')) by (auto; lia). rewrite (@cov_form eps 0 (S K') (S d') X resp ltac:(lia) W HO) by apply basis_length. rewrite (total_seq_ext _ (fun _ => 0)); [rewrite total_const; unfold Rdiv; ring|]. intros i Hi.
    assert (ZX : forall j, (j < length X)%nat -> dot (basis (S d') 0) (nth j X []) = 0) by (intros j Hj; rewrite dot_basis by (try lia; apply W, nth_In; auto); unfold X; rewrite LX in Hj; rewrite (nth_indep _ [] (repeat 0 (S d'))) by (rewrite repeat_length; lia); rewrite nth_repeat; reflexivity).
    rewrite (@dot_mean eps (S K') (S d') X resp ltac:(lia) W HO). rewrite ZX by auto. rewrite (total_seq_ext _ (fun _ => 0)) by (intros j Hj; rewrite ZX by auto; ring). rewrite total_const. unfold Rdiv. ring. }
  cbn [chol]. destruct (cov_of eps 0 (S d') X resp 0) as [|[|a r0] rows]; [reflexivity|reflexivity|]. unfold entry in Z. cbn [nth] in Z. subst a. destruct (Rltb 0 0) eqn:F; [apply Rltb_true in F; lra|reflexivity].
Qed.
Print Assumptions C51_unregularised_refuted.

(** Fitting again does not remove the precisions of the fit before: the first ones stay where they are, and
    [get_precisions] no longer starts with the inverses of the covariances. *)
Theorem C51_refit eps reg tol ct K d X draws max_iter num_init m m' : gmm_fit draws "random" ct eps reg tol max_iter num_init K d m X = Ok m' -> exists Bs, m_precisions m' = m_precisions m ++ Bs.
Proof.
  intro E. unfold gmm_fit in E. destruct (length X <? K)%nat; [discriminate|]. destruct (em_inits _ _ _ _ _ _ _ _ _ _ _ _) as [((c, lb), p)| | |]; try discriminate. cbn [bind] in E. destruct c; [|discriminate]. cbn [negb] in E.
  destruct (e_step ct p K d X) as [(l, lr)| | |]; try discriminate. cbn [bind] in E. injection E as <-. eexists. reflexivity.
Qed.
Print Assumptions C51_refit.
Definition ones (n : nat) : list (list R) := repeat [1] n.
Lemma ones_draw n : usable_draw n 1 (ones n).
Proof.
  split; [|split].
  - split; [apply repeat_length|]. intros r Hr. apply repeat_spec in Hr. now subst r.
  - intros r a Hr Ha. apply repeat_spec in Hr. subst r. destruct Ha as [<-|[]]. lra.
  - intros r Hr. apply repeat_spec in Hr. subst r. unfold total. cbn. lra.
Qed.
(** one component, two samples 0 and t *)
Lemma one_variance t m : exists m', gmm_fit (fun _ => ones 2) "random" "full" 1 1 1 2 1 1 1 m [[0]; [t]] = Ok m' /\ (m_precisions m = [] -> inverse_of 1 (nth 0 (covariances m') []) (nth 0 (m_precisions m') [])) /\
  length (nth 0 (covariances m') []) = 1%nat /\ shape 1 1 (nth 0 (covariances m') []) /\ entry (nth 0 (covariances m') []) 0 0 = 5 * t ^ 2 / 27 + 1.
Proof.
  assert (W : width 1 [[0]; [t]]) by (intros r [<-|[<-|[]]]; reflexivity). assert (PX : [[0]; [t]] <> []) by discriminate. assert (D : forall i, (i < 1)%nat -> usable_draw (length [[0]; [t]]) 1 ((fun _ => ones 2) i)) by (intros; apply ones_draw).
  destruct (@C51_one 1 1 1 "full" 1 [[0]; [t]] (fun _ => ones 2) 2 1 m) as (m' & E); auto; try lra. exists m'. split; [exact E|].
  destruct (@C51_fit 1 1 1 "full" 1 1 [[0]; [t]] (fun _ => ones 2) 2 1 m Rlt_0_1 Rlt_0_1 Nat.lt_0_1 PX W (or_introl eq_refl) D m' E) as (Bs & ws & mus & As & Bs0 & _ & H). cbv zeta in H.
  set (resp := map (fun x => normalise (mixture_terms 1 1 ws mus As Bs0 x)) [[0]; [t]]) in H. destruct H as (EB & (_ & _ & _ & _ & M) & HR & _ & He & _). destruct (M 0%nat ltac:(lia)) as (_ & _ & (S & _) & I).
  split; [intro Em; rewrite EB, Em; exact I|]. split; [apply S|]. split; [exact S|]. destruct (He eq_refl 0%nat ltac:(lia)) as (_ & _ & _ & Emu & EA). rewrite (EA 0%nat 0%nat) by lia. rewrite (Emu 0%nat) by lia.
  destruct HR as ((LR & SR) & _ & TR). assert (R1 : forall i, (i < 2)%nat -> entry resp i 0 = 1).
  { intros i Hi. assert (HI : In (nth i resp []) resp) by (apply nth_In; rewrite LR; exact Hi). specialize (SR _ HI). specialize (TR _ HI). unfold entry. destruct (nth i resp []) as [|a [|b r]]; try discriminate. unfold total in TR. cbn in TR. cbn. lra. }
  unfold mass. rewrite LR. cbn [length seq map Nat.eqb]. unfold total. cbn [fold_right]. rewrite !R1 by lia. unfold entry. cbn [nth]. field.
Qed.
Theorem C51_refit_refuted : exists m1 m2, gmm_fit (fun _ => ones 2) "random" "full" 1 1 1 2 1 1 1 new_gmm [[0]; [3]] = Ok m1 /\ gmm_fit (fun _ => ones 2) "random" "full" 1 1 1 2 1 1 1 m1 [[0]; [6]] = Ok m2 /\
  inverse_of 1 (nth 0 (covariances m1) []) (nth 0 (m_precisions m2) []) /\ ~ inverse_of 1 (nth 0 (covariances m2) []) (nth 0 (m_precisions m2) []).
Proof.
  destruct (one_variance 3 new_gmm) as (m1 & E1 & I1 & L1 & S1 & V1). destruct (one_variance 6 m1) as (m2 & E2 & _ & L2 & S2 & V2). specialize (I1 eq_refl). exists m1, m2. split; [auto|]. split; [auto|].
  assert (EP : nth 0 (m_precisions m2) [] = nth 0 (m_precisions m1) []).
  { destruct (C51_refit _ _ _ _ _ _ _ _ _ _ _ E2) as (Bs & ->). destruct (C51_refit _ _ _ _ _ _ _ _ _ _ _ E1) as (Bs1 & EB1). cbn [new_gmm m_precisions app] in EB1. destruct (m_precisions m1) as [|B r]; [|reflexivity].
    destruct I1 as ((LB & _) & _). discriminate. }
  rewrite EP. split; [exact I1|]. intro I2. destruct I1 as (SB & H1). destruct I2 as (_ & H2).
  assert (EA : nth 0 (covariances m1) [] = nth 0 (covariances m2) []).
  { apply (@inverse_unique 1 (nth 0 (m_precisions m1) [])); [split; [auto|]|split; [auto|]|apply SB]; intros z Lz; split; try apply H1; try apply H2; auto. }
  rewrite EA, V2 in V1. lra.
Qed.
Print Assumptions C51_refit_refuted.

(** ** Concrete cases: the hypotheses of the theorems hold *)
(** of [C51_outcome], [C51_fit], [C51_weights], [C51_moments], [C51_predict], [C51_one] *)
Example C51_case : exists m', gmm_fit (fun _ => ones 2) "random" "full" 1 1 1 2 1 1 1 new_gmm [[0]; [3]] = Ok m' /\ entry (nth 0 (covariances m') []) 0 0 = 8 / 3 /\ total (weights m') = 3 / 2.
Proof.
  destruct (one_variance 3 new_gmm) as (m' & E & _ & _ & _ & V). exists m'. split; [exact E|]. split; [rewrite V; field|].
  assert (W : width 1 [[0]; [3]]) by (intros r [<-|[<-|[]]]; reflexivity). assert (PX : [[0]; [3]] <> []) by discriminate. assert (D : forall i, (i < 1)%nat -> usable_draw (length [[0]; [3]]) 1 ((fun _ => ones 2) i)) by (intros; apply ones_draw).
  destruct (@C51_weights 1 1 1 "full" 1 1 [[0]; [3]] (fun _ => ones 2) 2 1 new_gmm Rlt_0_1 Rlt_0_1 Nat.lt_0_1 PX W (or_introl eq_refl) D m' E) as (_ & _ & T & _). rewrite T. cbn [length]. cbn [INR]. field.
Qed.
Definition two : list (list R) := [[3 / 4; 1 / 4]; [1 / 4; 3 / 4]].
Lemma two_responsibilities : responsibilities 2 2 two.
Proof.
  split; [split; [reflexivity|]|split].
  - intros r [<-|[<-|[]]]; reflexivity.
  - intros r a [<-|[<-|[]]] [<-|[<-|[]]]; lra.
  - intros r [<-|[<-|[]]]; unfold total; cbn; lra.
Qed.
(** of [C51_ascent], with two components *)
Example C51_ascent_case : exists q l lr p l' lr', new_params 1 1 "full" 2 1 [[0]; [2]] two = Ok q /\ e_step "full" q 2 1 [[0]; [2]] = Ok (l, lr) /\ m_step 1 1 "full" 2 1 [[0]; [2]] lr = Ok p /\ e_step "full" p 2 1 [[0]; [2]] = Ok (l', lr').
Proof.
  assert (W : width 1 [[0]; [2]]) by (intros r [<-|[<-|[]]]; reflexivity). assert (PX : [[0]; [2]] <> []) by discriminate. destruct (@new_params_ok 1 1 "full" 2 1 [[0]; [2]] Rlt_0_1 Rlt_0_1 Nat.lt_0_2 PX W (or_introl eq_refl) two (responsibilities_ok two_responsibilities)) as (q & E & V).
  destruct (@e_step_spec "full" 2 1 q [[0]; [2]] (or_introl eq_refl) Nat.lt_0_2 V W) as (lr & Ee & El). destruct (@step_ok 1 1 "full" 2 1 [[0]; [2]] Rlt_0_1 Rlt_0_1 Nat.lt_0_2 PX W (or_introl eq_refl) q V) as (p & S & Vp).
  destruct (@e_step_spec "full" 2 1 p [[0]; [2]] (or_introl eq_refl) Nat.lt_0_2 Vp W) as (lr' & Ee' & _). exists q, (avg (map (fun x => ln (total (terms 2 1 q x))) [[0]; [2]])), lr, p, (avg (map (fun x => ln (total (terms 2 1 p x))) [[0]; [2]])), lr'.
  split; [auto|]. split; [auto|]. split; [|auto]. unfold m_step. rewrite El. exact S.
Qed.
Lemma new_params_pd eps reg K d X resp : (0 < K)%nat -> width d X -> resp_ok (length X) K resp -> (forall k, (k < K)%nat -> bpos d (cov_of eps reg d X resp k)) -> exists p, new_params eps reg "full" K d X resp = Ok p.
Proof.
  intros PK W HO P. unfold new_params. destruct (estimate_parameters eps reg "full" K d X resp) as ((cs, ms), ns) eqn:EE. pose proof (@estimate_means eps reg K d X resp "full") as (E1 & E2). rewrite EE in E1, E2. cbn [fst snd] in E1, E2. subst ms ns.
  assert (C : cs = map (cov_of eps reg d X resp) (seq 0 K)).
  { unfold estimate_parameters in EE. cbn [String.eqb Ascii.eqb Bool.eqb] in EE. injection EE as <- Em En. rewrite Em, En. apply map_ext_in. intros k Hk. apply in_seq in Hk. unfold cov_of. rewrite !nth_seq_map by lia. reflexivity. }
  subst cs. unfold compute_precision_cholesky. rewrite (@vget_Ok matrix _ _ []) by (rewrite map_length, seq_length; lia). cbn [bind]. rewrite nth_seq_map by lia.
  assert (LM : forall k, length (mean_of eps d X resp k) = d) by (intro k; now apply mean_length). assert (LR : forall k, length (resp_col k resp) = length X) by (intro k; exact (@resp_col_length K X resp HO k)).
  assert (SQ : forall k, square d (cov_of eps reg d X resp k)) by (intro k; apply full_square; auto). assert (BS : forall k, bsym d (cov_of eps reg d X resp k)) by (intro k; apply full_bsym; auto).
  rewrite (proj1 (SQ 0%nat)), mapM_compose. rewrite (mapM_Ok _ (fun k => prec_of d (cov_of eps reg d X resp k))); [cbn [bind]; eauto|]. intros k Hk. apply in_seq in Hk. destruct (chol_complete (SQ k) (BS k) (P k ltac:(lia))) as (U & EU). unfold precision_chol, prec_of. now rewrite EU.
Qed.
Lemma two_points_pd resp : responsibilities 2 2 resp -> exists p, new_params 0 0 "full" 2 1 [[0]; [2]] resp = Ok p.
Proof.
  intro HR. assert (W : width 1 [[0]; [2]]) by (intros r [<-|[<-|[]]]; reflexivity). assert (HO := responsibilities_ok HR). apply new_params_pd; auto; try lia. intros k Hk z Lz (b & Hb & Nb). destruct z as [|a [|c z]]; try discriminate. destruct Hb as [->|[]].
  rewrite (@cov_form 0 0 2 1 [[0]; [2]] resp Nat.lt_0_2 W HO) by auto. rewrite (@dot_mean 0 2 1 [[0]; [2]] resp Nat.lt_0_2 W HO).
  assert (P : forall i, (i < 2)%nat -> 0 < entry resp i k) by (intros i Hi; destruct HR as ((L & S) & P & _); assert (HI : In (nth i resp []) resp) by (apply nth_In; lia); apply (P _ _ HI); apply nth_In; rewrite (S _ HI); auto).
  assert (M : nk 0 resp k = entry resp 0 k + entry resp 1 k) by (unfold nk, mass; destruct HR as ((L & _) & _); rewrite L; cbn [seq map]; unfold total; cbn [fold_right]; ring). rewrite M. cbn [length seq map nth]. unfold total. cbn [fold_right dot]. pose proof (P 0%nat ltac:(lia)) as P0. pose proof (P 1%nat ltac:(lia)) as P1.
  revert P0 P1. generalize (entry resp 0 k) as u. generalize (entry resp 1 k) as v. intros v u P0 P1. unfold dot; cbn.
  match goal with |- 0 < ?e => replace e with (4 * (b * b) * (u * v * / ((u + v) * (u + v)))) by (field; lra) end. assert (0 < b * b) by nra. assert (0 < u * v) by nra. assert (0 < / ((u + v) * (u + v))) by (apply Rinv_0_lt_compat; nra).
  apply Rmult_lt_0_compat; [lra|]. now apply Rmult_lt_0_compat.
Qed.
(** of [C51_monotone], with two components *)
Example C51_monotone_case : exists q l lr p l' lr', new_params 0 0 "full" 2 1 [[0]; [2]] two = Ok q /\ e_step "full" q 2 1 [[0]; [2]] = Ok (l, lr) /\ m_step 0 0 "full" 2 1 [[0]; [2]] lr = Ok p /\ e_step "full" p 2 1 [[0]; [2]] = Ok (l', lr').
Proof.
  assert (W : width 1 [[0]; [2]]) by (intros r [<-|[<-|[]]]; reflexivity). assert (PX : [[0]; [2]] <> []) by discriminate. destruct (two_points_pd two_responsibilities) as (q & E). destruct (new_params_full_inv 0 (Rle_refl 0) Nat.lt_0_2 PX W two_responsibilities E) as (_ & V).
  destruct (@e_step_spec "full" 2 1 q [[0]; [2]] (or_introl eq_refl) Nat.lt_0_2 V W) as (lr & Ee & El). pose proof (posterior_responsibilities [[0]; [2]] Nat.lt_0_2 V) as HR. destruct (two_points_pd HR) as (p & S). destruct (new_params_full_inv 0 (Rle_refl 0) Nat.lt_0_2 PX W HR S) as (_ & Vp).
  destruct (@e_step_spec "full" 2 1 p [[0]; [2]] (or_introl eq_refl) Nat.lt_0_2 Vp W) as (lr' & Ee' & _). exists q, (avg (map (fun x => ln (total (terms 2 1 q x))) [[0]; [2]])), lr, p, (avg (map (fun x => ln (total (terms 2 1 p x))) [[0]; [2]])), lr'.
  split; [auto|]. split; [auto|]. split; [|auto]. unfold m_step. rewrite El. exact S.
Qed.
