(** Softmax, k-means, naive Bayes, statistics and least squares with the features in another order. *)
From Coq Require Import Reals Lra.
From Verif Require Import Base Common_Model KDReal_Proofs Impurity_Spec Impurity_Model Impurity_Proofs Vec MathFun_Model Loss_Model Shuffle_Model Optim_Model Linear_Model Linear_Spec KMeans_Model Stats_Model Stats_Spec NB_Model NB_Spec NB_Proofs RowOrder_Proofs Properties_Linear UnitsLinear_Proofs Units_Spec UnitsMono_Proofs Cols_Spec Cols_Proofs.
Local Open Scope R_scope.
Set Implicit Arguments.

Section KMeans.
  Variable d : nat.
  Variable s : list nat.
  Hypothesis Hs : column_order d s.
  Notation rel := (reordered d s).
  Lemma row_sub_rel x x' c c' : rel x x' -> rel c c' -> same_outcome rel (row_sub x c) (row_sub x' c').
  Proof. apply (rel_sub Hs). Qed.
  Lemma norm_rel v v' : rel v v' -> norm v' = norm v.
  Proof. apply (rel_norm2 Hs). Qed.
  Lemma same_eq {A} (o o' : outcome A) : same_outcome eq o o' -> o' = o.
  Proof. destruct o, o'; cbn; intros; try contradiction; congruence. Qed.
  Lemma eq_list {A} (l : list A) : Forall2 eq l l.
  Proof. induction l; constructor; auto. Qed.
  Lemma closest_rel K C C' x x' : Forall2 rel C C' -> rel x x' -> closest K C' x' = closest K C x.
  Proof.
    intros HC Hx. apply same_eq. unfold closest. apply (@orel_bind _ _ _ _ eq); [|intros a b _ _ ->; reflexivity].
    apply (@orel_foldM _ _ _ _ eq eq _ _ _ _ (eq_list _)); [|reflexivity]. intros a a' j j' <- <-. unfold closest_step.
    eapply orel_bind; [eapply vget_rel; exact HC|]. intros c c' _ _ Hc. eapply orel_bind; [apply (row_sub_rel Hx Hc)|]. intros v v' _ _ Hv. cbn [same_outcome].
    now rewrite (norm_rel Hv).
  Qed.
  Lemma predict_rel K C C' X X' : Forall2 rel C C' -> Forall2 rel X X' -> KMeans_Model.predict K C' X' = KMeans_Model.predict K C X.
  Proof. intros HC HX. unfold KMeans_Model.predict. induction HX as [|x x' X X' Hx HX IH]; [reflexivity|]. cbn [mapM]. now rewrite (closest_rel K HC Hx), IH. Qed.
  Lemma assign_rel K C C' X X' : Forall2 rel C C' -> Forall2 rel X X' -> assign K C' X' = assign K C X.
  Proof.
    intros HC HX. apply same_eq. unfold assign. rewrite (forall2_len HX). apply (@orel_foldM _ _ _ _ eq eq _ _ _ _ (eq_list _)); [|reflexivity]. intros a a' j j' <- <-.
    eapply orel_bind; [eapply vget_rel; exact HX|]. intros x x' _ _ Hx. rewrite (closest_rel K HC Hx). apply orel_refl. reflexivity.
  Qed.
  Lemma pick_rel {A B} (r : A -> B -> Prop) u v is : Forall2 r u v -> same_outcome (Forall2 r) (mapM (vget u) is) (mapM (vget v) is).
  Proof.
    intros H. induction is as [|i is IH]; cbn [mapM]; [constructor|]. eapply orel_bind; [eapply vget_rel; exact H|]. intros a b _ _ Hab.
    eapply orel_bind; [exact IH|]. intros l l' _ _ Hl. constructor; assumption.
  Qed.
  Lemma col_mean_rel rows rows' : Forall2 rel rows rows' -> same_outcome rel (col_mean d rows) (col_mean d rows').
  Proof.
    intros H. unfold col_mean. pose proof (forall2_len H) as L. destruct H as [|x x' X X' Hx H]; [exact I|]. cbn [same_outcome]. rewrite L.
    apply (rel_vscale Hs), (rel_vsum Hs). now constructor.
  Qed.
  Lemma move_rel asserts X X' c C C' (e : R) : Forall2 rel X X' -> Forall2 rel C C' ->
    same_outcome (fun a b => Forall2 rel (fst a) (fst b) /\ snd b = snd a) (move_one asserts d X (C, e) c) (move_one asserts d X' (C', e) c).
  Proof.
    intros HX HC. unfold move_one. eapply orel_bind; [apply (pick_rel _ HX)|]. intros a b _ _ Hab. eapply orel_bind; [apply (col_mean_rel Hab)|]. intros m m' _ _ Hm.
    cbn [fst snd]. eapply orel_bind; [eapply vget_rel; exact HC|]. intros o o' _ _ Ho. eapply orel_bind; [apply (row_sub_rel Hm Ho)|]. intros v v' _ _ Hv.
    destruct (_ && _); [exact I|]. cbn. rewrite (norm_rel Hv). split; [|reflexivity]. now apply forall2_set_nth.
  Qed.
  Lemma lloyd_rel asserts K tol n X X' : Forall2 rel X X' -> forall C C', Forall2 rel C C' -> same_outcome (Forall2 rel) (lloyd asserts d K tol X n C) (lloyd asserts d K tol X' n C').
  Proof.
    intros HX. induction n as [|n IH]; intros C C' HC; cbn [lloyd]; [exact HC|]. unfold iteration. rewrite (assign_rel K HC HX).
    destruct (assign K C X) as [cl| | |]; cbn [bind same_outcome]; auto.
    eapply orel_bind.
    - apply (@orel_foldM _ _ _ _ (fun (a b : list (list R) * R) => Forall2 rel (fst a) (fst b) /\ snd b = snd a) eq _ (move_one asserts d X') cl cl (eq_list _)).
      + intros (a, e) (a', e') c c' <- (H1 & H2). cbn in H1, H2. subst e'. now apply move_rel.
      + split; [exact HC|reflexivity].
    - intros (a, e) (a', e') _ _ (H1 & H2). cbn in H1, H2. subst e'. destruct (Rltb e tol); [exact H1|now apply IH].
  Qed.
  Lemma sq_dists_rel X X' c c' : Forall2 rel X X' -> rel c c' -> sq_dists X' c' = sq_dists X c.
  Proof.
    intros HX Hc. apply same_eq. unfold sq_dists. induction HX as [|x x' X X' Hx HX IH]; cbn [mapM]; [reflexivity|].
    apply (@orel_bind _ _ _ _ eq).
    - eapply orel_bind; [apply (row_sub_rel Hx Hc)|]. intros v v' _ _ Hv. cbn [same_outcome]. symmetry. apply (rel_Rsum Hs). now apply (rel_map Hs).
    - intros a b _ _ <-. apply (@orel_bind _ _ _ _ eq); [exact IH|]. intros l l' _ _ <-. reflexivity.
  Qed.
  Lemma trial_rel X X' cd pot st r : Forall2 rel X X' -> trial X' cd pot st r = trial X cd pot st r.
  Proof.
    intros HX. apply same_eq. unfold trial. apply same_bind. intros k _. eapply orel_bind; [eapply vget_rel; exact HX|]. intros x x' _ _ Hx.
    rewrite (sq_dists_rel HX Hx). apply orel_refl. reflexivity.
  Qed.
  Lemma more_rel X X' draws : Forall2 rel X X' -> forall cd pot, same_outcome (Forall2 rel) (more_centres X draws cd pot) (more_centres X' draws cd pot).
  Proof.
    intros HX. induction draws as [|rs draws IH]; intros cd pot; cbn [more_centres]; [constructor|].
    assert (E : forall st, foldM (trial X' cd pot) rs st = foldM (trial X cd pot) rs st).
    { induction rs as [|r rs' IHr]; intros st; cbn [foldM]; [reflexivity|]. rewrite (trial_rel cd pot st r HX). destruct (trial X cd pot st r); cbn; auto. }
    rewrite E. apply same_bind. intros (pot', [(k, ds)|]) _; [|exact I]. eapply orel_bind; [eapply vget_rel; exact HX|]. intros x x' _ _ Hx.
    eapply orel_bind; [apply IH|]. intros l l' _ _ Hl. constructor; assumption.
  Qed.
  Lemma fit_rel asserts K tol n init X X' : Forall2 rel X X' -> same_outcome (Forall2 rel) (kmeans_fit asserts d K tol n init X) (kmeans_fit asserts d K tol n init X').
  Proof.
    intros HX. unfold kmeans_fit. eapply orel_bind; [|intros C C' _ _ HC; apply (lloyd_rel asserts K tol n HX HC)].
    destruct init as [perm|first draws|]; cbn [init_centroid]; [|  |exact I].
    - destruct (_ <=? _)%nat; [|exact I]. now apply pick_rel.
    - unfold kmeans_plusplus. eapply orel_bind; [eapply vget_rel; exact HX|]. intros c c' _ _ Hc. rewrite (sq_dists_rel HX Hc). apply same_bind. intros ds _.
      eapply orel_bind; [apply (more_rel draws HX)|]. intros l l' _ _ Hl. constructor; assumption.
  Qed.

  (** Statistics. *)
  Lemma col_sum_rel X X' : Forall2 rel X X' -> rel (col_sum d X) (col_sum d X').
  Proof.
    intros H. unfold col_sum. assert (G : forall a a', rel a a' -> rel (fold_left vadd X a) (fold_left vadd X' a')).
    { clear - H Hs. induction H as [|x x' X X' Hx H IH]; intros a a' Ha; [exact Ha|]. cbn [fold_left]. apply IH. now apply (rel_vadd Hs). }
    apply G, (rel_zeros Hs).
  Qed.
  Lemma col_means_rel X X' : Forall2 rel X X' -> rel (col_means d X) (col_means d X').
  Proof. intros H. unfold col_means. rewrite (forall2_len H). now apply (rel_map Hs), col_sum_rel. Qed.
  Lemma map_rows_rel f X X' : Forall2 rel X X' -> Forall2 rel (map (map f) X) (map (map f) X').
  Proof. induction 1; constructor; auto. now apply (rel_map Hs). Qed.
  Lemma col_vars_rel X X' : Forall2 rel X X' ->
    rel (vsub (col_means d (map (map sq) X)) (map sq (col_means d X))) (vsub (col_means d (map (map sq) X')) (map sq (col_means d X'))).
  Proof. intros H. apply (rel_map2 Hs); [now apply col_means_rel, map_rows_rel|now apply (rel_map Hs), col_means_rel]. Qed.
  Lemma rows_with_rel l X X' y : Forall2 rel X X' -> Forall2 rel (rows_with l X y) (rows_with l X' y).
  Proof. intros H. revert y. induction H as [|x x' X X' Hx H IH]; intros [|a y]; cbn; try constructor. destruct (Req_EM_T a l); [constructor|]; auto. Qed.
  Lemma width_rel X X' : Forall2 rel X X' -> width d X /\ width d X'.
  Proof.
    induction 1 as [|x x' X X' Hx H (IH1 & IH2)]; [split; apply width_nil|]. split; apply width_cons; split; try assumption; apply (rel_len Hs Hx).
  Qed.

  (** Naive Bayes. *)
  Definition gnb_rel (a b : gnb) : Prop := g_labels b = g_labels a /\ g_priors b = g_priors a /\ Forall2 rel (g_mean a) (g_mean b) /\ Forall2 rel (g_var a) (g_var b).
  Lemma gnb_class_rel X X' y l : (2 <= d)%nat -> Forall2 rel X X' ->
    same_outcome (fun a b => rel (fst a) (fst b) /\ rel (snd a) (snd b)) (gnb_class d X y l) (gnb_class d X' y l).
  Proof.
    intros Hd H. destruct (width_rel H) as (W & W'). unfold gnb_class. rewrite !rows_of_label_spec by assumption. cbn [bind]. pose proof (rows_with_rel l y H) as HR.
    unfold mean, var, only_row, vget. cbn. split; [now apply col_means_rel|now apply col_vars_rel].
  Qed.
  Lemma max_coeff_perm u v : Permutation u v -> max_coeff u = max_coeff v.
  Proof.
    intros HP. destruct u as [|a u]; [apply Permutation_nil in HP; now subst|].
    assert (Nv : v <> []) by (intros ->; apply Permutation_sym, Permutation_nil in HP; discriminate).
    destruct (max_coeff_spec (v := a :: u)) as (m & -> & Hm & Hl); [discriminate|]. destruct (max_coeff_spec Nv) as (m' & -> & Hm' & Hl'). f_equal. apply Rle_antisym.
    - apply Hl'. now apply (Permutation_in _ HP).
    - apply Hl. now apply (Permutation_in _ (Permutation_sym HP)).
  Qed.
  Lemma concat_rel X X' : Forall2 rel X X' -> Permutation (concat X) (concat X').
  Proof. induction 1 as [|x x' X X' (Lx & ->) H IH]; [constructor|]. cbn [concat]. apply Permutation_app; [now apply (ro_perm Hs)|exact IH]. Qed.
  Lemma mapM_rel {A B B'} (r : B -> B' -> Prop) (f : A -> outcome B) f' l : (forall a, In a l -> same_outcome r (f a) (f' a)) -> same_outcome (Forall2 r) (mapM f l) (mapM f' l).
  Proof.
    intros H. induction l as [|a l IH]; cbn [mapM]; [constructor|]. eapply orel_bind; [apply H; now left|]. intros b b' _ _ Hb.
    eapply orel_bind; [apply IH; intros; apply H; now right|]. intros t t' _ _ Ht. constructor; assumption.
  Qed.
  Lemma gnb_fit_rel eps s0 X X' y : (2 <= d)%nat -> Forall2 rel X X' -> same_outcome gnb_rel (gnb_fit eps d s0 X y) (gnb_fit eps d s0 X' y).
  Proof.
    intros Hd H. unfold gnb_fit. rewrite (forall2_len H). destruct (negb _); [reflexivity|].
    eapply orel_bind; [apply mapM_rel; intros l _; apply (gnb_class_rel y l Hd H)|]. intros cs cs' _ _ Hcs.
    assert (HV : Forall2 rel (map snd cs) (map snd cs')) by (induction Hcs as [|? ? ? ? (? & ?)]; cbn; constructor; auto).
    assert (HM : Forall2 rel (map fst cs) (map fst cs')) by (clear HV; induction Hcs as [|? ? ? ? (? & ?)]; cbn; constructor; auto).
    rewrite <- (max_coeff_perm (concat_rel HV)). apply same_bind. intros m _. cbn. repeat split; auto. cbn. now apply map_rows_rel.
  Qed.
  Lemma gnb_ll_rel m m' v v' x x' : rel m m' -> rel v v' -> rel x x' -> gnb_ll m' v' x' = gnb_ll m v x.
  Proof.
    intros Hm Hv Hx. unfold gnb_ll. destruct (rel_len Hs Hm) as (-> & ->). destruct (rel_len Hs Hx) as (-> & ->). rewrite Nat.eqb_refl. cbn [negb]. f_equal.
    rewrite (rel_Rsum Hs (rel_map Hs _ Hv)). unfold vsub. rewrite (rel_Rsum Hs (rel_map2 Hs Rdiv (rel_map Hs sq (rel_map2 Hs Rminus Hx Hm)) Hv)). reflexivity.
  Qed.
  Lemma gnb_jll_rel asserts a b X X' : gnb_rel a b -> Forall2 rel X X' -> gnb_jll asserts b X' = gnb_jll asserts a X.
  Proof.
    intros (HL & HP & HM & HV) HX. unfold gnb_jll. rewrite HL, HP. destruct (_ && _); [reflexivity|].
    induction HX as [|x x' X X' Hx HX IH]; cbn [mapM]; [reflexivity|]. rewrite IH. f_equal.
    clear IH HX. revert HV. generalize (g_var a) (g_var b). induction HM as [|m m' ms ms' Hm HM IH]; intros vs vs' HV; [reflexivity|]. destruct HV as [|v v' vs vs' Hv HV]; [reflexivity|].
    cbn [combine mapM fst snd]. now rewrite (gnb_ll_rel Hm Hv Hx), (IH vs vs' HV).
  Qed.
  Definition mnb_rel (a b : mnb) : Prop := m_labels b = m_labels a /\ m_priors b = m_priors a /\ m_nf a = d /\ m_nf b = d /\
    Forall2 rel (m_feature_count a) (m_feature_count b) /\ m_class_count b = m_class_count a.
  Lemma Rsum_perm u v : Permutation u v -> Rsum u = Rsum v.
  Proof. intros H. rewrite !Rsum_total. now apply total_perm'. Qed.
  Lemma mnb_class_rel asserts X X' y l : (2 <= d)%nat -> Forall2 rel X X' ->
    same_outcome (fun a b => rel (fst a) (fst b) /\ snd b = snd a) (mnb_class asserts d X y l) (mnb_class asserts d X' y l).
  Proof.
    intros Hd H. destruct (width_rel H) as (W & W'). unfold mnb_class. rewrite !rows_of_label_spec by assumption. cbn [bind]. pose proof (rows_with_rel l y H) as HR.
    unfold sum, only_row, vget. cbn [Z.eqb Pos.eqb bind nth_error]. destruct (_ && _); [exact I|]. cbn. split; [now apply col_sum_rel|]. symmetry. apply Rsum_perm. now apply concat_rel.
  Qed.
  Lemma mnb_fit_rel asserts s0 X X' y : (2 <= d)%nat -> Forall2 rel X X' -> same_outcome mnb_rel (mnb_fit asserts d s0 X y) (mnb_fit asserts d s0 X' y).
  Proof.
    intros Hd H. unfold mnb_fit. rewrite (forall2_len H). destruct (negb _); [reflexivity|].
    eapply orel_bind; [apply mapM_rel; intros l _; apply (mnb_class_rel asserts y l Hd H)|]. intros cs cs' _ _ Hcs. cbn. unfold mnb_rel. cbn. repeat split.
    - induction Hcs as [|? ? ? ? (? & ?)]; cbn; constructor; auto.
    - induction Hcs as [|? ? ? ? (? & E)]; cbn; [reflexivity|]. now rewrite E, IHHcs.
  Qed.
  Lemma mnb_loop (c : R -> R) x fc n : forall r, (forall j, (j < n)%nat -> (j < length x)%nat /\ (j < length fc)%nat) -> forall k, (k <= n)%nat ->
    foldM (fun retval i => let! xi := vget x i in let! f := vget fc i in Ok (retval + xi * c f)) (seq (n - k) k) r =
    Ok (r + total (map (fun j => nth j x 0 * c (nth j fc 0)) (seq (n - k) k))).
  Proof.
    intros r Hn k. revert r. induction k as [|k IH]; intros r Hk; [cbn; f_equal; unfold total; cbn; lra|].
    cbn [seq foldM map]. destruct (Hn (n - S k)%nat) as (A & B); [lia|]. unfold vget at 1 2.
    rewrite (nth_error_nth' x 0 A), (nth_error_nth' fc 0 B). cbn [bind]. replace (S (n - S k)) with (n - k)%nat by lia. rewrite IH by lia. unfold total. cbn [fold_right]. f_equal. ring.
  Qed.
  Lemma mnb_ll_rel alpha a b c x x' : mnb_rel a b -> rel x x' -> mnb_ll alpha b c x' = mnb_ll alpha a c x.
  Proof.
    intros (HL & HP & Hna & Hnb & HF & HC) Hx. apply same_eq. unfold mnb_ll. rewrite HC, Hna, Hnb. eapply orel_bind; [eapply vget_rel; exact HF|]. intros fc fc' _ _ Hf. apply same_bind. intros cc _.
    destruct (rel_len Hs Hx) as (Lx & Lx'). destruct (rel_len Hs Hf) as (Lf & Lf'). rewrite Lx, Lx'.
    assert (A : forall j, (j < d)%nat -> (j < length x)%nat /\ (j < length fc)%nat) by (intros; lia).
    assert (B : forall j, (j < d)%nat -> (j < length x')%nat /\ (j < length fc')%nat) by (intros; lia).
    pose proof (mnb_loop (fun f => ln ((f + alpha) / (cc + alpha * INR d))) x fc 0 A (le_n d)) as EA. pose proof (mnb_loop (fun f => ln ((f + alpha) / (cc + alpha * INR d))) x' fc' 0 B (le_n d)) as EB.
    rewrite Nat.sub_diag in EA, EB. rewrite EA, EB. cbn [same_outcome]. f_equal.
    assert (Z : forall u v, length u = d -> length v = d -> map (fun j => nth j u 0 * ln ((nth j v 0 + alpha) / (cc + alpha * INR d))) (seq 0 d) = map2 Rmult u (map (fun f => ln ((f + alpha) / (cc + alpha * INR d))) v)).
    { intros u v Lu Lv. rewrite map2_map_r. rewrite <- (nth_all 0 (map2 _ u v)). rewrite map2_length, Lu by congruence. apply map_ext_in. intros j Hj. apply in_seq in Hj.
      rewrite (nth_map2 _ 0 0) by (lia || congruence). reflexivity. }
    rewrite !Z by assumption. symmetry. apply (rel_total Hs). apply (rel_map2 Hs); [exact Hx|now apply (rel_map Hs)].
  Qed.
  Lemma mnb_jll_rel alpha a b X X' : mnb_rel a b -> Forall2 rel X X' -> mnb_jll alpha b X' = mnb_jll alpha a X.
  Proof.
    intros HR HX. pose proof HR as (HL & HP & _). unfold mnb_jll. rewrite HL, HP.
    induction HX as [|x x' X X' Hx HX IH]; cbn [mapM]; [reflexivity|]. rewrite IH. f_equal.
    clear IH. induction (seq 0 (length (m_labels a))) as [|c l IHl]; [reflexivity|]. cbn [mapM]. now rewrite (mnb_ll_rel alpha c HR Hx), IHl.
  Qed.
End KMeans.
