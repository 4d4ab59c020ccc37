(** Softmax loss and linear models with the features in another order. *)
From Coq Require Import Reals Lra String.
From Verif Require Import Base Common_Model KDReal_Proofs Impurity_Spec Impurity_Model Impurity_Proofs Vec MathFun_Model Loss_Model Shuffle_Model Optim_Model Lbfgs_Model Linear_Model Linear_Spec Linear_Proofs RowOrder_Proofs Properties_Linear UnitsLinear_Proofs Units_Spec UnitsMono_Proofs Cols_Spec Cols_Proofs ColsLbfgs_Proofs ColsMore_Proofs.
Local Open Scope list_scope.
Local Open Scope R_scope.
Set Implicit Arguments.

Section Softmax.
  Variables d K : nat.
  Variable s : list nat.
  Hypothesis Hs : column_order d s.
  Notation rel := (reordered d s).
  Notation rrel := (reordered_rows d s).
  Lemma row_mul_rel x x' W W' : rel x x' -> rrel W W' -> row_mul K W' x' = row_mul K W x.
  Proof.
    intros (Lx & ->) (LW & ->). unfold row_mul. rewrite !(ro_length Hs), Lx, LW, !Nat.eqb_refl. f_equal.
    rewrite <- (ro_map2 Hs 0 (@nil R) (@nil R) vscale x W Lx LW). apply vsum_perm, Permutation_sym, (ro_perm Hs). rewrite map2_length; congruence.
  Qed.
  Lemma softmax_exp_rel X X' W W' : Forall2 rel X X' -> rrel W W' -> softmax_exp K X' W' = softmax_exp K X W.
  Proof.
    intros HX HW. unfold softmax_exp. assert (E : mapM (row_mul K W') X' = mapM (row_mul K W) X); [|now rewrite E].
    induction HX as [|x x' X X' Hx HX IH]; [reflexivity|]. cbn [mapM]. now rewrite (row_mul_rel Hx HW), IH.
  Qed.
  Lemma gram_sum_rel W W' : rrel W W' -> gram_sum K W' = gram_sum K W.
  Proof.
    intros (LW & ->). unfold gram_sum. f_equal. apply map_ext. intros k. f_equal. apply map_ext. intros l. apply Rsum_perm, Permutation_map, Permutation_sym, (ro_perm Hs _ _ LW).
  Qed.
  Lemma seq_order {A} (f : nat -> A) : map (fun i => f (nth i s 0%nat)) (seq 0 d) = map f s.
  Proof. rewrite <- (map_map (fun i => nth i s 0%nat) f). f_equal. rewrite <- (order_length Hs). apply nth_all. Qed.
  Lemma softmax_rel lambda X X' (y : list nat) W W' : Forall2 rel X X' -> rrel W W' ->
    softmax_evaluate K lambda X' y W' = softmax_evaluate K lambda X y W /\ same_outcome rrel (softmax_gradient K lambda X y W) (softmax_gradient K lambda X' y W').
  Proof.
    intros HX HW. pose proof HW as (LW & EW). unfold softmax_evaluate, softmax_gradient. rewrite (forall2_len HX), (softmax_exp_rel HX HW), (gram_sum_rel HW).
    split; [reflexivity|]. apply same_bind. intros e _. apply same_bind. intros p Ep. assert (LW' : length W' = d) by (subst W'; apply (ro_length Hs)). rewrite LW, LW'.
    set (g := fun xs => vscale (1 / INR (length X)) (vsum K (map2 vscale xs p))).
    assert (EX : mapM (fun j => let! xs := mapM (fun x => vget x j) X in Ok (vscale (1 / INR (length X)) (vsum K (map2 vscale xs p)))) (seq 0 d) = Ok (map (fun j => g (map (fun x => nth j x 0) X)) (seq 0 d))).
    { apply mapM_Ok. intros j Hj. apply in_seq in Hj. rewrite (mapM_Ok _ (fun x => nth j x 0)); [reflexivity|]. intros x Hx. destruct (width_rel Hs HX) as (WX & _). unfold vget. rewrite (nth_error_nth' x 0); [reflexivity|]. rewrite (WX x Hx). lia. }
    assert (EX' : mapM (fun j => let! xs := mapM (fun x => vget x j) X' in Ok (vscale (1 / INR (length X)) (vsum K (map2 vscale xs p)))) (seq 0 d) = Ok (map (fun j => g (map (fun x => nth j x 0) X')) (seq 0 d))).
    { apply mapM_Ok. intros j Hj. apply in_seq in Hj. rewrite (mapM_Ok _ (fun x => nth j x 0)); [reflexivity|]. intros x Hx. destruct (width_rel Hs HX) as (_ & WX). unfold vget. rewrite (nth_error_nth' x 0); [reflexivity|]. rewrite (WX x Hx). lia. }
    rewrite EX, EX'. cbn [bind same_outcome]. set (G := map (fun j => g (map (fun x => nth j x 0) X)) (seq 0 d)).
    assert (LG : length G = d) by (unfold G; now rewrite map_length, seq_length).
    assert (EG : map (fun j => g (map (fun x => nth j x 0) X')) (seq 0 d) = reorder [] s G).
    { transitivity (map (fun j => g (map (fun x => nth j x 0) X)) s).
      - rewrite <- (seq_order (fun j => g (map (fun x => nth j x 0) X))). apply map_ext_in. intros i Hi. apply in_seq in Hi. f_equal. clear - HX Hs Hi. induction HX as [|x x' X X' (Lx & ->) HX IH]; [reflexivity|]. cbn [map]. f_equal; [|exact IH].
        unfold reorder. rewrite (nth_indep _ 0 (nth 0 x 0)) by (rewrite map_length, (order_length Hs); lia). rewrite (map_nth (fun j => nth j x 0) s 0%nat i). reflexivity.
      - unfold reorder, G. apply map_ext_in. intros j Hj. apply (order_lt Hs) in Hj. rewrite (nth_indep _ [] (g (map (fun x => nth 0 x 0) X))) by (rewrite map_length, seq_length; lia).
        rewrite (map_nth (fun j => g (map (fun x => nth j x 0) X))), seq_nth by lia. reflexivity. }
    rewrite EG, EW. split; [rewrite map2_length; congruence|]. symmetry. now apply (ro_map2 Hs).
  Qed.
End Softmax.

Lemma nth_map_in {A B} (f : A -> B) l b a n : (n < length l)%nat -> nth n (map f l) b = f (nth n l a).
Proof. intros H. rewrite (nth_indep _ b (f a)) by now rewrite map_length. apply map_nth. Qed.

Section Linear.
  Variable d : nat.
  Variable s : list nat.
  Hypothesis Hs : column_order d s.
  Notation rel := (reordered d s).
  Lemma keep_order i : column_order (n_coef i d) (keep_last i d s).
  Proof. destruct i; cbn; [|exact Hs]. unfold column_order in *. rewrite seq_app. now apply Permutation_app_tail. Qed.
  Lemma ext_rel i x x' : rel x x' -> reordered (n_coef i d) (keep_last i d s) (ext i x) (ext i x').
  Proof.
    intros (L & ->). destruct i; cbn; [|now split]. split; [rewrite app_length; cbn; lia|]. unfold reorder. rewrite map_app. cbn [map].
    rewrite (app_nth2 x) by lia. rewrite L, Nat.sub_diag. cbn. f_equal. apply map_ext_in. intros j Hj. apply (order_lt Hs) in Hj. now rewrite app_nth1 by lia.
  Qed.
  Lemma ones_rel i X X' : Forall2 rel X X' -> Forall2 (reordered (n_coef i d) (keep_last i d s)) (with_ones i X) (with_ones i X').
  Proof. intros H. rewrite !with_ones_ext. induction H; constructor; auto. now apply ext_rel. Qed.
  Lemma ro_onto v : length v = d -> exists u, reordered d s u v.
  Proof.
    intros L. exists (map (fun j => nth (hd 0%nat (filter (fun i => (nth i s 0 =? j)%nat) (seq 0 d))) v 0) (seq 0 d)). split; [now rewrite map_length, seq_length|].
    assert (ND : NoDup s) by (apply (Permutation_NoDup Hs), seq_NoDup). pose proof (order_length Hs) as Ls.
    apply (nth_ext _ _ 0 0); [now rewrite (ro_length Hs)|]. intros n Hn. unfold reorder. rewrite L in Hn.
    rewrite (nth_map_in _ s 0 0%nat) by lia. set (j := nth n s 0%nat). assert (Hj : (j < d)%nat) by (apply (order_lt Hs); apply nth_In; lia).
    rewrite (nth_map_in _ (seq 0 d) 0 0%nat) by (rewrite seq_length; lia). rewrite seq_nth by lia. cbn [Nat.add]. f_equal.
    assert (In n (filter (fun i => (nth i s 0 =? j)%nat) (seq 0 d))) as HI by (apply filter_In; split; [apply in_seq; lia|apply Nat.eqb_refl]).
    destruct (filter _ _) as [|m r] eqn:E; [contradiction|]. cbn [hd]. assert (HM : In m (m :: r)) by now left. rewrite <- E in HM. apply filter_In in HM. destruct HM as (H1 & H2). apply in_seq in H1. apply Nat.eqb_eq in H2.
    rewrite NoDup_nth in ND. symmetry. apply (ND m n); [lia|lia|exact H2].
  Qed.
  Lemma sqn_rel u u' : rel u u' -> sqn u' = sqn u.
  Proof. intros H. unfold sqn. apply (rel_dot Hs H H). Qed.
End Linear.

Section Fit.
  Variable d : nat.
  Variable s : list nat.
  Hypothesis Hs : column_order d s.
  Variable i : bool.
  Notation rel := (reordered d s).
  Notation wrel := (reordered (n_coef i d) (keep_last i d s)).
  Lemma linear_fun_rel w w' x x' : wrel w w' -> rel x x' -> linear_fun i w' x' = linear_fun i w x.
  Proof.
    intros Hw Hx. pose proof (rel_len (keep_order Hs i) Hw) as (L & L'). pose proof (rel_len Hs Hx) as (Lx & Lx').
    rewrite <- (@ext_fun i d w x), <- (@ext_fun i d w' x') by (rewrite ?ncols_coef; assumption). apply (rel_dot (keep_order Hs i)); [|exact Hw]. now apply ext_rel.
  Qed.
  Lemma rss_rel X X' y w w' : wrel w w' -> Forall2 rel X X' -> rss i X' y w' = rss i X y w.
  Proof.
    intros Hw HX. unfold rss. f_equal. revert y. induction HX as [|x x' X X' Hx HX IH]; intros [|a y]; try reflexivity. cbn [combine map fst snd]. now rewrite (linear_fun_rel Hw Hx), IH.
  Qed.
  Lemma penalised_rel lambda X X' y w w' : wrel w w' -> Forall2 rel X X' -> penalised_rss lambda i X' y w' = penalised_rss lambda i X y w.
  Proof. intros Hw HX. unfold penalised_rss. now rewrite (rss_rel y Hw HX), (sqn_rel (keep_order Hs i) Hw). Qed.
  Lemma unique_rel F F' w w' : (forall u u', wrel u u' -> F' u' = F u) -> unique_minimum (n_coef i d) F w -> unique_minimum (n_coef i d) F' w' -> wrel w w'.
  Proof.
    intros HF (L & U) (L' & U'). split; [exact L|]. assert (R : wrel w (reorder 0 (keep_last i d s) w)) by now split.
    symmetry. apply U'; [apply (rel_len (keep_order Hs i) R)|]. rewrite (HF _ _ R). destruct (ro_onto (keep_order Hs i) w' L') as (u & Hu). rewrite (HF _ _ Hu). apply U. apply Hu.
  Qed.
  Lemma independent_rel X X' : Forall2 rel X X' -> independent i d X <-> independent i d X'.
  Proof.
    intros HX. split; intros HI w L H.
    - destruct (ro_onto (keep_order Hs i) w L) as (u & Hu). assert (u = zeros (n_coef i d)) as ->.
      { apply HI; [apply Hu|]. intros x Hx. clear L HI. induction HX as [|a a' X X' Ha HX IH]; [contradiction|]. destruct Hx as [<-|Hx].
        - rewrite <- (linear_fun_rel Hu Ha). apply H. now left.
        - apply IH; [intros z Hz; apply H; now right|exact Hx]. }
      destruct Hu as (_ & ->). apply (ro_zeros (keep_order Hs i)).
    - assert (Hu : wrel w (reorder 0 (keep_last i d s) w)) by now split.
      assert (E : reorder 0 (keep_last i d s) w = zeros (n_coef i d)).
      { apply HI; [apply (rel_len (keep_order Hs i) Hu)|]. intros x Hx. clear HI. induction HX as [|a a' X X' Ha HX IH]; [contradiction|]. destruct Hx as [<-|Hx].
        - rewrite (linear_fun_rel Hu Ha). apply H. now left.
        - apply IH; [intros z Hz; apply H; now right|exact Hx]. }
      assert (Z : sqn w = 0). { rewrite <- (sqn_rel (keep_order Hs i) Hu), E. unfold sqn. apply dot_zeros_l. }
      rewrite <- L. apply zeros_of. now apply sqn_zero.
  Qed.
  Lemma linear_rel X X' y : Forall2 rel X X' -> same_outcome (reordered_option (n_coef i d) (keep_last i d s)) (linear_fit i d X y) (linear_fit i d X' y).
  Proof.
    intros HX. destruct (width_rel Hs HX) as (W & W'). pose proof (forall2_len HX) as LX. destruct (Nat.eq_dec (length y) (length X)) as [Ly|Ny].
    - assert (Ly' : length y = length X') by congruence.
      destruct (fit_cases i y W Ly) as [(-> & N)|(T & w & -> & M)]; destruct (fit_cases i y W' Ly') as [(-> & N')|(T' & w' & -> & M')]; cbn.
      + exact I.
      + apply N, (independent_rel HX), T'.
      + apply N', (independent_rel HX), T.
      + eapply unique_rel; [|exact M|exact M']. intros u u' Hu. now apply rss_rel.
    - destruct (C48_lengths i d X y Ny) as (-> & _). destruct (C48_lengths i d X' y) as (-> & _); [congruence|]. exact I.
  Qed.
  Lemma ridge_rel lambda X X' y : 0 < lambda -> Forall2 rel X X' -> same_outcome (reordered_option (n_coef i d) (keep_last i d s)) (ridge_fit lambda i d X y) (ridge_fit lambda i d X' y).
  Proof.
    intros Hl HX. destruct (width_rel Hs HX) as (W & W'). pose proof (forall2_len HX) as LX. destruct (Nat.eq_dec (length y) (length X)) as [Ly|Ny].
    - assert (Ly' : length y = length X') by congruence.
      destruct (C48_ridge lambda i d X y Hl W Ly) as (w & -> & M). destruct (C48_ridge lambda i d X' y Hl W' Ly') as (w' & -> & M'). cbn.
      eapply unique_rel; [|exact M|exact M']. intros u u' Hu. now apply penalised_rel.
    - destruct (C48_lengths i d X y Ny) as (_ & E). destruct (C48_lengths i d X' y) as (_ & E'); [congruence|]. rewrite E, E'. exact I.
  Qed.
  Lemma predict_label_rel w w' X X' : wrel w w' -> Forall2 rel X X' -> predict_label i w' d X' = predict_label i w d X.
  Proof.
    intros Hw HX. destruct (rel_len (keep_order Hs i) Hw) as (L & L'). unfold predict_label. destruct i; cbn [n_coef keep_last] in *.
    - rewrite L, L'. destruct (_ <=? _)%nat; [|reflexivity]. assert (R : rel (firstn d w) (firstn d w')).
      { split; [rewrite firstn_length; lia|]. destruct Hw as (_ & ->). unfold reorder. rewrite map_app, firstn_app. rewrite map_length, (order_length Hs), Nat.sub_diag. cbn [firstn]. rewrite app_nil_r.
        rewrite <- (order_length Hs) at 1. rewrite <- (map_length (fun j => nth j w 0) s), firstn_all. apply map_ext_in. intros j Hj. apply (order_lt Hs) in Hj.
        rewrite <- (firstn_skipn d w) at 1. rewrite app_nth1; [reflexivity|]. rewrite firstn_length. lia. }
      rewrite (rel_mv Hs HX R). assert (E : vget w' (d + 1 - 1) = vget w (d + 1 - 1)); [|now rewrite E].
      replace (d + 1 - 1)%nat with d by lia. destruct Hw as (_ & ->). unfold vget. rewrite (nth_error_nth' w 0) by lia. unfold reorder. rewrite map_app. rewrite nth_error_app2 by (rewrite map_length, (order_length Hs); lia).
      rewrite map_length, (order_length Hs), Nat.sub_diag. reflexivity.
    - rewrite L, L'. destruct (_ =? _)%nat; [|reflexivity]. apply (rel_mv Hs HX Hw).
  Qed.
End Fit.
