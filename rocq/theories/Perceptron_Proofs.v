(** The perceptron convergence argument for runs of SGD on the hinge loss with threshold 0. *)
From Coq Require Import Reals Lra Psatz.
From Verif Require Import Base Common_Model KDReal_Proofs Impurity_Spec Impurity_Proofs Vec Loss_Model Loss_Spec Loss_Proofs LossHinge_Proofs Metric_Proofs
  Shuffle_Model Optim_Model Optim_Spec Optim_Proofs Descent_Proofs Properties_Optim Travel_Spec Travel_Proofs.
Local Open Scope R_scope.
Set Implicit Arguments.

Definition mist (s : list R) (p : list R * R) : R := if Rltb 0 (dot (fst p) s * snd p) then 0 else 1.
Lemma mist_range s p : 0 <= mist s p <= 1.
Proof. unfold mist. destruct (Rltb _ _); lra. Qed.
Lemma total_mono {A} (f g : A -> R) l : (forall p, In p l -> f p <= g p) -> total (map f l) <= total (map g l).
Proof. induction l as [|p l IH]; intro H; unfold total in *; cbn; [lra|]. specialize (IH ltac:(intros; apply H; now right)). specialize (H p ltac:(now left)). lra. Qed.
Lemma total_times {A} (c : R) (f : A -> R) l : total (map (fun p => c * f p) l) = c * total (map f l).
Proof. induction l as [|p l IH]; unfold total in *; cbn; [lra|]. rewrite IH. lra. Qed.
Lemma total_zero {A} (f : A -> R) l : (forall p, In p l -> f p = 0) -> total (map f l) = 0.
Proof. induction l as [|p l IH]; intro H; unfold total in *; cbn; [lra|]. rewrite IH by (intros; apply H; now right). rewrite H by now left. lra. Qed.
Lemma dot_sqn_0 d (g : list R) : length g = d -> sqn g = 0 -> g = zeros d.
Proof.
  revert d. induction g as [|a g IH]; intros d L H; subst d; [reflexivity|]. change (sqn (a :: g)) with (a * a + sqn g) in H. pose proof (sqn_nonneg g). pose proof (Rle_0_sqr a) as Q. unfold Rsqr in Q.
  assert (a = 0) by nra. subst a. change (zeros (length (0 :: g))) with (0 :: zeros (length g)). f_equal. apply IH; [reflexivity|lra].
Qed.
Lemma clip_zero d : clip_grad (zeros d) = zeros d.
Proof. apply clip_id. assert (E : sqn (zeros d) = 0) by (unfold sqn; induction d as [|d IH]; [reflexivity|]; change (0 * 0 + dot (zeros d) (zeros d) = 0); rewrite IH; ring). rewrite E. apply pow_le. lra. Qed.
Lemma vsub_zeros (s : list R) c : vsub s (vscale c (zeros (length s))) = s.
Proof. induction s as [|a s IH]; [reflexivity|]. change (vsub (a :: s) (vscale c (zeros (length (a :: s))))) with ((a - c * 0) :: vsub s (vscale c (zeros (length s)))). rewrite IH. f_equal. ring. Qed.

Lemma epoch_nil_inv {A B S} (step : S -> R -> nat -> list A -> list B -> outcome (S * R)) lr j s s' L : epoch_run step lr j [] s s' L -> s' = s /\ L = 0.
Proof. intro H. inversion H. auto. Qed.
Lemma epoch_cons_inv {A B S} (step : S -> R -> nat -> list A -> list B -> outcome (S * R)) lr j X y bl s s' L : epoch_run step lr j ((X, y) :: bl) s s' L ->
  exists s1 l L', step s lr j X y = Ok (s1, l) /\ epoch_run step lr (Datatypes.S j) bl s1 s' L' /\ L = l + L'.
Proof. intro H. inversion H. subst. eauto 8. Qed.

Lemma combine_fst_incl (A B : list (list R)) (a b : list R) x :
  length a = length A -> incl (combine A a) (combine B b) -> In x A -> In x B.
Proof.
  intros L HI Hx. destruct (In_nth _ _ [] Hx) as (k & Hk & <-). apply (in_combine_l B b _ (nth k a 0)). apply HI. rewrite <- combine_nth by auto. apply nth_In. rewrite combine_length. lia.
Qed.

Definition pstep d := sgd_step (hinge_gradient (zeros d) 0 0) (hinge_evaluate 0 0) clip_grad vanilla_update.

Section Perceptron.
  Variables (d : nat) (X : list (list R)) (y : list R).
  Hypothesis HX : width d X.
  Hypothesis HL : forall b, In b y -> b = 1 \/ b = -1.

  (** One batch *)
  Section Batch.
    Variables (Xb : list (list R)) (yb : list R) (s : list R).
    Hypothesis HI : incl (combine Xb yb) (combine X y).
    Hypothesis HS : shapes Xb yb s.
    Hypothesis Hs : length s = d.
    Let g := glm_grad (hinge_dphi 0) 1 0 Xb yb s.
    Let m := total (map (mist s) (combine Xb yb)).
    Lemma batch_dot v : length v = d -> dot g v = total (map (fun p => - (mist s p * (snd p * dot (fst p) v))) (combine Xb yb)).
    Proof.
      intro Lv. unfold g. rewrite glm_grad_dot by (auto; congruence). rewrite Rmult_1_l. unfold Rdiv. rewrite Rmult_0_l, Rmult_0_l, Rplus_0_r. f_equal. apply map_ext. intros (x, b). cbn [fst snd].
      unfold hinge_dphi, mist. cbn [fst snd]. destruct (Rltb _ _); ring.
    Qed.
    Lemma batch_label p : In p (combine Xb yb) -> snd p * snd p = 1 /\ length (fst p) = d.
    Proof.
      intro H. apply HI in H. destruct p as (x, b). cbn [fst snd]. split; [destruct (HL b (in_combine_r _ _ _ _ H)) as [-> | ->]; lra|]. apply HX. exact (in_combine_l _ _ _ _ H).
    Qed.
    Lemma m_nonneg : 0 <= m.
    Proof. unfold m. assert (H : forall l, 0 <= total (map (mist s) l)) by (induction l as [|p l IH]; unfold total in *; cbn; [lra|]; pose proof (mist_range s p); lra). apply H. Qed.
    Lemma m_size : m <= INR (length Xb).
    Proof.
      unfold m. assert (H : forall l, total (map (mist s) l) <= INR (length l)).
      { induction l as [|p l IH]; [unfold total; cbn; lra|]. cbn [map length]. rewrite S_INR. change (total (mist s p :: map (mist s) l)) with (mist s p + total (map (mist s) l)). pose proof (mist_range s p). lra. }
      eapply Rle_trans; [apply H|]. rewrite combine_length. apply le_INR. lia.
    Qed.
    Lemma batch_forward u c : length u = d -> margin c u X y -> dot g u <= - (c * m).
    Proof.
      intros Lu HM. rewrite batch_dot by auto. unfold m. rewrite <- Ropp_mult_distr_l_reverse, <- total_times. apply total_mono. intros (x, b) Hp. cbn [fst snd]. pose proof (HM x b (HI _ Hp)). pose proof (mist_range s (x, b)). nra.
    Qed.
    Lemma batch_down : 0 <= dot g s.
    Proof.
      rewrite batch_dot by auto. apply total_nonneg. intros (x, b) Hp. unfold mist. cbn [fst snd]. destruct (Rltb 0 (dot x s * b)) eqn:E; [lra|]. apply Rltb_false in E. lra.
    Qed.
    Lemma batch_length : length g = d.
    Proof. unfold g. rewrite glm_grad_length; auto. Qed.
    Lemma batch_norm radius : 0 <= radius -> (forall x, In x X -> sqn x <= radius * radius) -> sqn g <= (m * radius) * (m * radius).
    Proof.
      intros Hr HR. pose proof batch_length as Lg. pose proof m_nonneg as Pm. pose proof (sqn_nonneg g) as Pg. set (G := sqrt (sqn g)).
      assert (EG : G * G = sqn g) by (apply sqrt_sqrt; auto). assert (PG : 0 <= G) by apply sqrt_pos.
      assert (B : sqn g <= m * (radius * G)).
      { unfold sqn at 1. rewrite batch_dot by auto. unfold m. rewrite (Rmult_comm (total _)), <- total_times. apply total_mono. intros p Hp. destruct (batch_label _ Hp) as (Eb & Lx).
        assert (CS : dot (fst p) g * dot (fst p) g <= (radius * G) * (radius * G)).
        { eapply Rle_trans; [apply cauchy_schwarz; congruence|]. rewrite <- EG. assert (sqn (fst p) <= radius * radius) by (apply HR; destruct p as (x, b); exact (in_combine_l _ _ _ _ (HI _ Hp))). pose proof (Rle_0_sqr G) as Q. unfold Rsqr in Q. nra. }
        assert (CS' : Rabs (snd p * dot (fst p) g) <= radius * G).
        { rewrite <- (Rabs_right (radius * G)) by (apply Rle_ge, Rmult_le_pos; auto). apply Rsqr_le_abs_0. unfold Rsqr. nra. }
        pose proof (mist_range s p). pose proof (Rle_abs (- (snd p * dot (fst p) g))) as Q. rewrite Rabs_Ropp in Q. nra. }
      assert (G <= m * radius).
      { destruct (Req_dec G 0) as [E|E]; [rewrite E; apply Rmult_le_pos; auto|]. apply Rmult_le_reg_r with G; [lra|]. rewrite EG. lra. }
      rewrite <- EG. apply Rmult_le_compat; auto.
    Qed.

    (** The step taken *)
    Lemma batch_step radius lr j s' l : 0 <= radius -> (forall x, In x X -> sqn x <= radius * radius) -> INR (length Xb) * radius <= 10 ^ 10 -> 0 <= lr ->
      pstep d s lr j Xb yb = Ok (s', l) ->
      length s' = d /\ (forall u c, length u = d -> margin c u X y -> dot s u + c * (lr * m) <= dot s' u) /\
      sqn s' <= sqn s + lr * lr * (INR (length Xb) * (radius * radius)) * m /\ (m = 0 -> s' = s).
    Proof.
      intros Hr HR HC Hl E. unfold pstep, sgd_step in E. rewrite hinge_gradient_glm in E by (auto; rewrite zeros_length; auto). cbn [bind] in E. fold g in E.
      pose proof batch_length as Lg. rewrite <- Lg, zeros_vadd in E. pose proof (batch_norm Hr HR) as BN. pose proof m_nonneg as Pm. pose proof m_size as Sm.
      assert (CG : clip_grad g = g).
      { apply clip_id. assert (MR : m * radius <= 10 ^ 10) by (eapply Rle_trans; [|exact HC]; apply Rmult_le_compat_r; auto). assert (P0 : 0 <= m * radius) by (apply Rmult_le_pos; auto).
        eapply Rle_trans; [exact BN|]. replace (10 ^ 20) with (10 ^ 10 * 10 ^ 10) by ring. apply Rmult_le_compat; auto. }
      rewrite CG in E. unfold vanilla_update in E. rewrite sub_ok in E by (rewrite vscale_length; congruence). cbn [bind] in E. destruct (hinge_evaluate _ _ _ _ _) as [l'| | |]; try discriminate. cbn [bind] in E. injection E as <- _.
      assert (Lv : length s = length (vscale lr g)) by (rewrite vscale_length; congruence). split; [rewrite vsub_length; auto|]. split; [|split].
      - intros u c Lu HM. rewrite dot_vsub_l by auto. rewrite dot_vscale_l. pose proof (batch_forward Lu HM). nra.
      - unfold sqn at 1. rewrite dot_vsub_l by auto. rewrite !dot_vsub_r by auto. rewrite dot_vscale_l, !dot_vscale_r, dot_vscale_l. rewrite (dot_comm s g). pose proof batch_down as BD.
        change (dot s s) with (sqn s). change (dot g g) with (sqn g). assert (Q : sqn g <= INR (length Xb) * (radius * radius) * m).
        { eapply Rle_trans; [exact BN|]. replace (m * radius * (m * radius)) with (m * (m * (radius * radius))) by ring. replace (INR (length Xb) * (radius * radius) * m) with (m * (INR (length Xb) * (radius * radius))) by ring.
          apply Rmult_le_compat_l; auto. apply Rmult_le_compat_r; auto. apply Rmult_le_pos; auto. }
        pose proof (Rmult_le_compat_l (lr * lr) _ _ ltac:(apply Rmult_le_pos; auto) Q). nra.
      - intro Em. rewrite Em in BN. assert (Eg : g = zeros d) by (apply dot_sqn_0; auto; pose proof (sqn_nonneg g); nra). rewrite Eg, <- Hs. apply vsub_zeros.
    Qed.
    Lemma batch_silent lr j s' l : separates s Xb yb -> pstep d s lr j Xb yb = Ok (s', l) -> s' = s /\ l = 0.
    Proof.
      intros Hsep E. unfold pstep, sgd_step in E. rewrite hinge_gradient_glm in E by (auto; rewrite zeros_length; auto). cbn [bind] in E. fold g in E.
      pose proof batch_length as Lg. rewrite <- Lg, zeros_vadd in E.
      assert (Eg : g = zeros d).
      { apply dot_sqn_0; auto. unfold sqn. rewrite batch_dot by auto. apply total_zero. intros (x, b) Hp. unfold mist. cbn [fst snd]. specialize (Hsep x b Hp). destruct (Rltb 0 (dot x s * b)) eqn:Q; [ring|]. apply Rltb_false in Q. lra. }
      rewrite Eg, clip_zero in E. unfold vanilla_update in E. rewrite sub_ok in E by (rewrite vscale_length, zeros_length; congruence). cbn [bind] in E. rewrite <- Hs, vsub_zeros in E.
      rewrite hinge_evaluate_glm in E by auto. cbn [bind] in E. injection E as <- <-. split; [auto|]. unfold glm, over_samples, penalty, Rdiv.
      rewrite total_zero; [ring|]. intros (x, b) Hp. cbn [fst snd]. specialize (Hsep x b Hp). unfold hinge_phi. apply Rmax_left. lra.
    Qed.
  End Batch.
  Lemma total_0_each {A} (f : A -> R) l : (forall p, 0 <= f p) -> total (map f l) = 0 -> forall p, In p l -> f p = 0.
  Proof.
    intro Hf. induction l as [|q l IH]; intros H p Hp; [destruct Hp|]. change (total (map f (q :: l))) with (f q + total (map f l)) in H. assert (P : 0 <= total (map f l)) by (apply total_nonneg; intros; apply Hf).
    pose proof (Hf q). destruct Hp as [<-|Hp]; [lra|]. apply IH; [lra|auto].
  Qed.
  Lemma m0_separates s Xb yb : total (map (mist s) (combine Xb yb)) = 0 -> separates s Xb yb.
  Proof.
    intros H x b Hp. pose proof (total_0_each (mist s) _ (fun p => proj1 (mist_range s p)) H _ Hp) as E. unfold mist in E. cbn [fst snd] in E. destruct (Rltb 0 (dot x s * b)) eqn:Q; [|lra]. apply Rltb_true in Q. lra.
  Qed.

  (** One epoch *)
  Variables (bs : nat) (radius : R).
  Hypothesis Hbs : (0 < bs)%nat.
  Hypothesis Hr : 0 <= radius.
  Hypothesis HR : forall x, In x X -> sqn x <= radius * radius.
  Hypothesis HC : INR bs * radius <= 10 ^ 10.

  Definition is_whole (bl : list (list (list R) * list R)) := (forall b, In b bl -> length (fst b) = bs /\ length (snd b) = bs) /\ incl (samples bl) (combine X y).
  Lemma whole_head Xb yb bl s : is_whole ((Xb, yb) :: bl) -> length s = d -> incl (combine Xb yb) (combine X y) /\ shapes Xb yb s /\ is_whole bl /\ length Xb = bs.
  Proof.
    intros (H & I) Ls. destruct (H _ (or_introl eq_refl)) as (L1 & L2). cbn [fst snd] in L1, L2. assert (I1 : incl (combine Xb yb) (combine X y)) by (intros p Hp; apply I; unfold samples; cbn [flat_map fst snd]; apply in_or_app; now left).
    split; [auto|]. split; [|split; [split; [intros b Hb; apply H; now right|intros p Hp; apply I; unfold samples; cbn [flat_map fst snd]; apply in_or_app; now right]|auto]].
    split; [destruct Xb; [cbn in L1; lia|discriminate]|]. split; [|congruence]. rewrite Ls. intros x Hx. apply HX. apply (@combine_fst_incl Xb X yb y); auto. congruence.
  Qed.

  Lemma epoch_progress lr : 0 <= lr -> forall bl j s s' L, is_whole bl -> length s = d -> epoch_run (pstep d) lr j bl s s' L ->
    exists M, 0 <= M /\ length s' = d /\ (forall u c, length u = d -> margin c u X y -> dot s u + c * (lr * M) <= dot s' u) /\
      sqn s' <= sqn s + lr * lr * (INR bs * (radius * radius)) * M /\ ((exists b, In b bl /\ ~ separates s (fst b) (snd b)) -> 1 <= M).
  Proof.
    intros Hl. induction bl as [|(Xb, yb) bl IH]; intros j s s' L HB Ls H.
    - destruct (epoch_nil_inv H) as (-> & ->). exists 0. split; [lra|]. split; [auto|]. split; [intros; lra|]. split; [lra|]. intros (b & [] & _).
    - destruct (epoch_cons_inv H) as (s1 & l & L' & H8 & H9 & ->). destruct (@whole_head _ _ _ s HB Ls) as (I1 & HS & HB' & LX). destruct (@batch_step Xb yb s I1 HS Ls radius lr j s1 l Hr HR ltac:(rewrite LX; exact HC) Hl H8) as (Ls1 & F1 & N1 & Z1). rewrite LX in N1.
      destruct (IH _ _ _ _ HB' Ls1 H9) as (M & PM & Ls2 & F2 & N2 & B2). set (m := total (map (mist s) (combine Xb yb))) in *. assert (Pm : 0 <= m) by apply (m_nonneg Xb yb s).
      exists (m + M). split; [lra|]. split; [auto|]. split; [intros u c Lu HM; specialize (F1 u c Lu HM); specialize (F2 u c Lu HM); lra|]. split; [lra|].
      intros (b & Hb & NS). destruct (Req_dec m 0) as [E|E].
      + rewrite (Z1 E) in *. rewrite E, Rplus_0_l. apply B2. destruct Hb as [<-|Hb]; [exfalso; apply NS; now apply m0_separates|eauto].
      + assert (1 <= m); [|lra]. assert (D : forall q, total (map (mist s) q) = 0 \/ 1 <= total (map (mist s) q)).
        { clear. intro q. induction q as [|p l [I|I]]; [left; reflexivity| |]; change (total (map (mist s) (p :: l))) with (mist s p + total (map (mist s) l)); assert (Q : mist s p = 0 \/ mist s p = 1) by (unfold mist; destruct (Rltb _ _); auto); destruct Q as [Q|Q]; rewrite Q; lra. }
        destruct (D (combine Xb yb)) as [D0|D0]; [exfalso; apply E; exact D0|exact D0].
  Qed.
  Lemma epoch_silent lr bl : forall j s s' L, is_whole bl -> length s = d -> separates s X y -> epoch_run (pstep d) lr j bl s s' L -> s' = s /\ L = 0.
  Proof.
    induction bl as [|(Xb, yb) bl IH]; intros j s s' L HB Ls Hsep H; [exact (epoch_nil_inv H)|]. destruct (epoch_cons_inv H) as (s1 & l & L' & H8 & H9 & ->). destruct (@whole_head _ _ _ s HB Ls) as (I1 & HS & HB' & LX).
    destruct (@batch_silent Xb yb s HS Ls lr j s1 l ltac:(intros x b Hp; apply Hsep; auto) H8) as (-> & ->).
    destruct (IH _ _ _ _ HB' Ls Hsep H9) as (-> & ->). split; [auto|ring].
  Qed.

  (** A run *)
  Variables (w0 u : list R) (c alpha : R) (decay : nat -> outcome R) (rate : nat -> R) (shuffle : bool).
  Hypothesis Hy : length y = length X.
  Hypothesis Hdiv : (length X mod bs = 0)%nat.
  Hypothesis Hw0 : length w0 = d.
  Hypothesis Hu : length u = d.
  Hypothesis Hc : 0 < c.
  Hypothesis HM : margin c u X y.
  Hypothesis Ha : 0 < alpha.

  Lemma separates_dec s : {separates s X y} + {~ separates s X y}.
  Proof.
    unfold separates. assert (D : forall l : list (list R * R), {forall x b, In (x, b) l -> 0 < b * dot x s} + {~ forall x b, In (x, b) l -> 0 < b * dot x s}).
    { induction l as [|(x, b) l [IH|IH]]; [left; intros ? ? []| |right; intro Q; apply IH; intros; apply Q; now right]. destruct (Rlt_dec 0 (b * dot x s)) as [P|P]; [left|right; intro Q; apply P, Q; now left].
      intros x' b' [E|H]; [injection E as <- <-; auto|auto]. }
    apply D.
  Qed.
  Lemma run_whole K data state loss e : training_run (pstep d) decay shuffle bs X y w0 K data state loss -> (e < K)%nat ->
    exists lr bl, decay e = Ok lr /\ is_whole bl /\ incl (combine X y) (samples bl) /\ epoch_run (pstep d) lr 0 bl (state e) (state (S e)) (loss e).
  Proof.
    intros (_ & H) He. destruct (H e He) as ((L1 & L2 & P) & _ & lr & bl & Ed & IB & ER). exists lr, bl. split; [auto|]. destruct (in_batches_samples IB) as (rest & Er & Ez). rewrite L1 in Ez. rewrite (Ez (fun _ => Hdiv)), app_nil_r in Er.
    split; [split; [apply IB|]|split; [|auto]]; intros p Hp; [apply (Permutation_in _ (Permutation_sym P)); now rewrite Er|rewrite <- Er; apply (Permutation_in _ P); auto].
  Qed.

  Lemma run_separated K data state loss k : training_run (pstep d) decay shuffle bs X y w0 K data state loss -> (k <= K)%nat -> length (state k) = d -> separates (state k) X y ->
    forall e, (k <= e)%nat -> (e <= K)%nat -> state e = state k /\ ((e < K)%nat -> loss e = 0).
  Proof.
    intros HRun Hk Lk Sk. assert (G : forall n, (k + n <= K)%nat -> state (k + n)%nat = state k /\ ((k + n < K)%nat -> loss (k + n)%nat = 0)).
    { assert (St : forall n, (k + n <= K)%nat -> state (k + n)%nat = state k).
      { induction n as [|n IH]; intro Hn; [now rewrite Nat.add_0_r|]. specialize (IH ltac:(lia)). destruct (run_whole HRun (e := (k + n)%nat) ltac:(lia)) as (lr & bl & _ & HB & _ & ER). rewrite IH in ER.
        destruct (epoch_silent HB Lk Sk ER) as (E & _). now rewrite <- plus_n_Sm. }
      intros n Hn. split; [auto|]. intro Hn'. destruct (run_whole HRun (e := (k + n)%nat) Hn') as (lr & bl & _ & HB & _ & ER). rewrite (St n Hn) in ER. exact (proj2 (epoch_silent HB Lk Sk ER)). }
    intros e H1 H2. specialize (G (e - k)%nat). replace (k + (e - k))%nat with e in G by lia. auto.
  Qed.

  Lemma run_progress K data state loss : (forall e, (e < K)%nat -> decay e = Ok (rate e) /\ 0 < rate e <= alpha) -> training_run (pstep d) decay shuffle bs X y w0 K data state loss ->
    (forall k, (k < K)%nat -> ~ separates (state k) X y) ->
    forall k, (k <= K)%nat -> exists A, total (map rate (seq 0 k)) <= A /\ length (state k) = d /\ dot w0 u + c * A <= dot (state k) u /\ sqn (state k) <= sqn w0 + alpha * (INR bs * (radius * radius)) * A.
  Proof.
    intros Hrate HRun NS. induction k as [|k IH]; intro Hk.
    - exists 0. rewrite (proj1 HRun). split; [cbn; lra|]. split; [auto|]. split; lra.
    - destruct IH as (A & A1 & A2 & A3 & A4); [lia|]. destruct (run_whole HRun (e := k) ltac:(lia)) as (lr & bl & Ed & HB & HI & ER). destruct (Hrate k ltac:(lia)) as (Ed' & Rp & Ra). rewrite Ed' in Ed. injection Ed as <-.
      destruct (@epoch_progress (rate k) ltac:(lra) bl 0 _ _ _ HB A2 ER) as (M & M0 & M1 & M2 & M3 & M4). assert (1 <= M).
      { apply M4. assert (D : (exists b, In b bl /\ ~ separates (state k) (fst b) (snd b)) \/ forall b, In b bl -> separates (state k) (fst b) (snd b)).
        { clear - bl. induction bl as [|(Xb, yb) bl IH]; [right; intros ? []|]. destruct IH as [(b & Hb & Q)|IH]; [left; exists b; split; [now right|auto]|].
          destruct (Classical_Prop.classic (separates (state k) Xb yb)) as [P|P]; [right; intros b [<-|Hb]; auto|left; exists (Xb, yb); split; [now left|auto]]. }
        destruct D as [D|D]; [exact D|]. exfalso. apply (NS k ltac:(lia)). intros x b Hp. apply HI in Hp. unfold samples in Hp. apply in_flat_map in Hp. destruct Hp as (bb & Hbb & Hp). exact (D bb Hbb x b Hp). }
      exists (A + rate k * M). rewrite seq_S, map_app, total_app, Nat.add_0_l. replace (total (map rate [k])) with (rate k) by (unfold total; cbn; lra).
      split; [nra|]. split; [auto|]. specialize (M2 u c Hu HM). split; [lra|].
      assert (Q : rate k * rate k * (INR bs * (radius * radius)) * M <= alpha * (INR bs * (radius * radius)) * (rate k * M)); [|lra].
      assert (0 <= INR bs * (radius * radius)) by (apply Rmult_le_pos; [apply pos_INR|nra]). replace (rate k * rate k * (INR bs * (radius * radius)) * M) with (rate k * ((INR bs * (radius * radius)) * (rate k * M))) by ring.
      rewrite (Rmult_assoc alpha). apply Rmult_le_compat_r; [|lra]. apply Rmult_le_pos; [auto|]. apply Rmult_le_pos; lra.
  Qed.

  Definition effort := INR bs * sqn u * (radius * radius) / (c * c) + 2 * sqrt (sqn u) * sqrt (sqn w0) / (alpha * c).
  Lemma enough A s : length s = d -> 0 <= A -> dot w0 u + c * A <= dot s u -> sqn s <= sqn w0 + alpha * (INR bs * (radius * radius)) * A -> A / alpha <= effort.
  Proof.
    intros Ls PA H1 H2. unfold effort. set (B := INR bs * (radius * radius)) in *. assert (PB : 0 <= B) by (apply Rmult_le_pos; [apply pos_INR|nra]).
    pose proof (sqn_nonneg u) as Pu. pose proof (sqn_nonneg w0) as Pw. pose proof (sqn_nonneg s) as Ps. set (U := sqrt (sqn u)). set (W := sqrt (sqn w0)).
    assert (EU : U * U = sqn u) by (apply sqrt_sqrt; auto). assert (EW : W * W = sqn w0) by (apply sqrt_sqrt; auto). assert (PU : 0 <= U) by apply sqrt_pos. assert (PW : 0 <= W) by apply sqrt_pos.
    pose proof (cauchy_schwarz w0 u ltac:(congruence)) as C1. pose proof (cauchy_schwarz s u ltac:(congruence)) as C2. rewrite <- EU, <- EW in C1.
    assert (D1 : - (U * W) <= dot w0 u).
    { assert (Q : Rabs (dot w0 u) <= Rabs (U * W)) by (apply Rsqr_le_abs_0; unfold Rsqr; nra). rewrite (Rabs_right (U * W)) in Q by (apply Rle_ge, Rmult_le_pos; auto). pose proof (Rle_abs (- dot w0 u)) as Q'. rewrite Rabs_Ropp in Q'. lra. }
    assert (K : A <= alpha * (B * (U * U) / (c * c)) + 2 * (U * W) / c).
    { destruct (Rle_dec (c * A) (U * W)) as [Q|Q].
      - assert (T1 : 0 <= alpha * (B * (U * U) / (c * c))) by (apply Rmult_le_pos; [lra|]; apply Rmult_le_pos; [apply Rmult_le_pos; nra|left; apply Rinv_0_lt_compat; nra]).
        assert (T2 : A <= U * W / c) by (apply Rmult_le_reg_l with c; [auto|]; replace (c * (U * W / c)) with (U * W) by (field; lra); auto).
        assert (0 <= U * W / c) by (apply Rmult_le_pos; [apply Rmult_le_pos; auto|left; apply Rinv_0_lt_compat; auto]). replace (2 * (U * W) / c) with (U * W / c + U * W / c) by (field; lra). lra.
      - apply Rnot_le_lt in Q. assert (P2 : (c * A - U * W) * (c * A - U * W) <= U * U * (W * W + alpha * B * A)).
        { assert (P3 : (c * A - U * W) * (c * A - U * W) <= dot s u * dot s u) by (apply Rmult_le_compat; lra).
          eapply Rle_trans; [exact P3|]. eapply Rle_trans; [exact C2|]. rewrite <- EU, Rmult_comm. apply Rmult_le_compat_l; [nra|]. rewrite EW. lra. }
        assert (PA' : 0 < A) by (destruct (Req_dec A 0) as [E|]; [rewrite E in Q; assert (0 <= U * W) by (apply Rmult_le_pos; auto); lra|lra]).
        assert (P4 : c * c * A <= U * U * alpha * B + 2 * c * (U * W)).
        { apply Rmult_le_reg_r with A; [auto|]. assert (W * W * (U * U) = (U * W) * (U * W)) by ring. nra. }
        apply Rmult_le_reg_l with (c * c); [nra|]. replace (c * c * (alpha * (B * (U * U) / (c * c)) + 2 * (U * W) / c)) with (U * U * alpha * B + 2 * c * (U * W)) by (field; lra). exact P4. }
    rewrite EU in K. apply Rmult_le_reg_l with alpha; [auto|]. replace (alpha * (A / alpha)) with A by (field; lra).
    replace (alpha * (INR bs * sqn u * (radius * radius) / (c * c) + 2 * U * W / (alpha * c))) with (alpha * (B * sqn u / (c * c)) + 2 * (U * W) / c) by (unfold B; field; lra). exact K.
  Qed.

  Lemma run_separates K data state loss : (forall e, (e < K)%nat -> decay e = Ok (rate e) /\ 0 < rate e <= alpha) -> training_run (pstep d) decay shuffle bs X y w0 K data state loss ->
    effort < total (map rate (seq 0 K)) / alpha -> exists k, (k < K)%nat /\ length (state k) = d /\ separates (state k) X y.
  Proof.
    intros Hrate HRun HE. assert (D : (exists k, (k < K)%nat /\ separates (state k) X y /\ forall i, (i < k)%nat -> ~ separates (state i) X y) \/ forall k, (k < K)%nat -> ~ separates (state k) X y).
    { clear. induction K as [|n IH]; [right; intros; lia|]. destruct IH as [(k & H1 & H2 & H3)|H]; [left; exists k; split; [lia|auto]|].
      destruct (separates_dec (state n)) as [S1|S1]; [left; exists n; split; [lia|auto]|right; intros k Hk; destruct (Nat.eq_dec k n) as [->|]; [auto|apply H; lia]]. }
    destruct D as [(k & H1 & H2 & H3)|NS].
    - exists k. split; [auto|]. split; [|auto]. assert (HRun' : training_run (pstep d) decay shuffle bs X y w0 k data state loss) by (split; [apply HRun|intros e He; apply HRun; lia]).
      destruct (@run_progress k data state loss ltac:(intros e He; apply Hrate; lia) HRun' H3 k (le_n _)) as (_ & _ & L & _). exact L.
    - exfalso. destruct (@run_progress K data state loss Hrate HRun NS K (le_n _)) as (A & A1 & A2 & A3 & A4).
      assert (PA : 0 <= A). { eapply Rle_trans; [|exact A1]. apply total_nonneg. intros e He. apply in_seq in He. destruct (Hrate e ltac:(lia)). lra. }
      pose proof (@enough A (state K) A2 PA A3 A4) as Q. assert (total (map rate (seq 0 K)) / alpha <= A / alpha) by (apply Rmult_le_compat_r; [left; apply Rinv_0_lt_compat; auto|auto]). lra.
  Qed.
End Perceptron.
