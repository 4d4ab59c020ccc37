From Coq Require Import Reals Lra Lia.
From Verif Require Import Base Common_Model RDR_Proofs KDReal_Proofs Impurity_Model Impurity_Spec Impurity_Proofs Vec MathFun_Model
  Loss_Model Loss_Spec Loss_Proofs LossSoftmax_Proofs Optim_Model NB_Model Linear_Model Linear_Spec LinSolve_Proofs.
Local Open Scope R_scope.
Set Implicit Arguments.

Lemma dot_app u u' : forall v v', length u = length v -> dot (u ++ u') (v ++ v') = dot u v + dot u' v'.
Proof.
  induction u as [|a u IH]; intros [|b v] v' L; cbn in L; try lia; [cbn [app]; rewrite dot_nil_l; lra|].
  cbn [app]. rewrite !dot_cons, IH by lia. lra.
Qed.
Lemma ncols_coef i d : ncols i d = n_coef i d.
Proof. destruct i; cbn; lia. Qed.
Lemma removelast_length {A} (l : list A) : length (removelast l) = (length l - 1)%nat.
Proof. rewrite removelast_firstn_len, firstn_length. lia. Qed.
Lemma split_last (w : list R) d : length w = S d -> w = removelast w ++ [last w 0] /\ length (removelast w) = d.
Proof. intro L. split; [apply app_removelast_last; destruct w; [discriminate|discriminate]|rewrite removelast_length; lia]. Qed.
Definition ext (intercept : bool) (x : list R) : list R := if intercept then x ++ [1] else x.
Lemma with_ones_ext i X : with_ones i X = map (ext i) X.
Proof. destruct i; cbn; [auto|]. symmetry. apply map_id. Qed.
Lemma ext_length i d x : length x = d -> length (ext i x) = ncols i d.
Proof. intro L. destruct i; cbn; [rewrite app_length; cbn; lia|auto]. Qed.
Lemma ext_fun i d w x : length x = d -> length w = ncols i d -> dot (ext i x) w = linear_fun i w x.
Proof.
  intros Lx Lw. destruct i; cbn [ncols ext linear_fun] in *; [|auto]. destruct (split_last w Lw) as (E & L). rewrite E at 1. rewrite dot_app by lia. rewrite dot_cons, dot_nil_l. lra.
Qed.
Lemma width_ext i d X : width d X -> width (ncols i d) (map (ext i) X).
Proof. intros W x Hx. apply in_map_iff in Hx. destruct Hx as (z & <- & Hz). apply ext_length; auto. Qed.

(** * The Gram matrix *)
Lemma dot_nths d : forall u v, length u = d -> length v = d -> dot u v = total (map (fun j => nth j u 0 * nth j v 0) (seq 0 d)).
Proof.
  induction d as [|d IH]; intros [|a u] [|b v] L1 L2; cbn in L1, L2; try lia; [reflexivity|].
  rewrite dot_cons. cbn [seq map total fold_right nth]. rewrite <- seq_shift, map_map. rewrite (IH u v) by lia. reflexivity.
Qed.
Lemma nth_gram d X i : (i < d)%nat -> nth i (gram d X) [] = map (fun j => Rsum (map (fun r => nth i r 0 * nth j r 0) X)) (seq 0 d).
Proof.
  intro L. unfold gram. set (f := fun i => map (fun j => Rsum (map (fun r => nth i r 0 * nth j r 0) X)) (seq 0 d)).
  rewrite (nth_indep _ [] (f 0%nat)) by (rewrite map_length, seq_length; auto). rewrite map_nth, seq_nth by auto. reflexivity.
Qed.
Lemma nth_seq_map {A} (f : nat -> A) d i z : (i < d)%nat -> nth i (map f (seq 0 d)) z = f i.
Proof. intro L. rewrite (nth_indep _ z (f 0%nat)) by (rewrite map_length, seq_length; auto). rewrite map_nth, seq_nth by auto. reflexivity. Qed.
Lemma gram_length d X : length (gram d X) = d.
Proof. unfold gram. now rewrite map_length, seq_length. Qed.
Lemma gram_width d X : width d (gram d X).
Proof. intros r Hr. unfold gram in Hr. apply in_map_iff in Hr. destruct Hr as (i & <- & _). now rewrite map_length, seq_length. Qed.
Lemma gram_row d X v i : width d X -> length v = d -> (i < d)%nat -> dot (nth i (gram d X) []) v = total (map (fun r => nth i r 0 * dot r v) X).
Proof.
  intros W Lv L. rewrite nth_gram by auto. rewrite (@dot_nths d) by (auto; now rewrite map_length, seq_length).
  rewrite (total_ext _ (fun j => total (map (fun r => nth j v 0 * (nth i r 0 * nth j r 0)) X))).
  2: { intros j Hj. apply in_seq in Hj. rewrite nth_seq_map by lia. rewrite Rsum_total, total_scal. ring. }
  rewrite (total_swap (fun j r => nth j v 0 * (nth i r 0 * nth j r 0))). apply total_ext. intros r Hr.
  rewrite (@dot_nths d) by auto. rewrite <- total_scal. apply total_ext. intros j _. ring.
Qed.
Lemma gram_dot d X u v : width d X -> length u = d -> length v = d -> dot u (map (fun a => dot a v) (gram d X)) = total (map (fun r => dot r u * dot r v) X).
Proof.
  intros W Lu Lv. rewrite (@dot_nths d) by (auto; now rewrite map_length, gram_length).
  rewrite (total_ext _ (fun i => total (map (fun r => nth i u 0 * (nth i r 0 * dot r v)) X))).
  2: { intros i Hi. apply in_seq in Hi. rewrite nth_dots. rewrite gram_row by (auto; lia). now rewrite <- total_scal. }
  rewrite (total_swap (fun i r => nth i u 0 * (nth i r 0 * dot r v))). apply total_ext. intros r Hr.
  rewrite (@dot_nths d r u) by auto. rewrite Rmult_comm, <- total_scal. apply total_ext. intros j _. ring.
Qed.
Lemma add_diag_dots lambda d A v : width d A -> length A = d -> length v = d ->
  map (fun a => dot a v) (add_diag lambda d A) = vadd (map (fun a => dot a v) A) (vscale lambda v).
Proof.
  intros W LA Lv. unfold add_diag.
  assert (G : forall k A v', (forall a, In a A -> length a = d) -> (k + length A <= d)%nat -> v' = skipn k v -> (k + length A = d)%nat ->
    map (fun a => dot a v) (map2 (fun i r => vadd r (vscale lambda (basis d i))) (seq k (length A)) A) = vadd (map (fun a => dot a v) A) (vscale lambda v')).
  { clear - Lv. intros k A. revert k. induction A as [|a A IH]; intros k v' W L E Q; cbn [length seq map2 map] in *; [reflexivity|].
    destruct v' as [|b v']; [exfalso; apply (f_equal (@length R)) in E; rewrite skipn_length in E; cbn in E; lia|].
    assert (Eb : nth k v 0 = b).
    { rewrite <- (firstn_skipn k v), <- E. rewrite app_nth2 by (rewrite firstn_length; lia). rewrite firstn_length, Nat.min_l by lia. now rewrite Nat.sub_diag. }
    assert (Ev : v' = skipn (S k) v).
    { clear - E. revert v E. induction k as [|k IH]; intros v E; [now rewrite skipn_O in E; rewrite <- E|]. destruct v as [|c v]; [discriminate|]. cbn [skipn] in E. exact (IH v E). }
    change (vscale lambda (b :: v')) with (lambda * b :: vscale lambda v'). change (vadd (dot a v :: map (fun a => dot a v) A) (lambda * b :: vscale lambda v')) with (dot a v + lambda * b :: vadd (map (fun a => dot a v) A) (vscale lambda v')).
    f_equal.
    - rewrite dot_vadd_l by (rewrite vscale_length, basis_length; apply W; now left). rewrite dot_vscale_l. enough (B : dot (basis d k) v = b) by (rewrite B; reflexivity). rewrite <- Eb.
      rewrite (@dot_nths d) by (auto; apply basis_length). rewrite (total_ext _ (fun j => if (j =? k)%nat then nth k v 0 else 0)).
      2: { intros j Hj. rewrite nth_basis by lia. destruct (Nat.eqb_spec j k) as [->|]; ring. }
      assert (Z : forall n s, (s <= k)%nat -> total (map (fun j => if (j =? k)%nat then nth k v 0 else 0) (seq s n)) = if (k <? s + n)%nat then nth k v 0 else 0).
      { clear. induction n as [|n IH]; intros s L; cbn [seq map total fold_right]; [destruct (Nat.ltb_spec k (s + 0)); [lia|reflexivity]|].
        destruct (Nat.eqb_spec s k) as [->|N].
        - destruct (Nat.ltb_spec k (k + S n)); [|lia]. rewrite (total_ext _ (fun _ => 0)); [rewrite total_const; lra|]. intros j Hj. apply in_seq in Hj. destruct (Nat.eqb_spec j k); [lia|auto].
        - rewrite IH by lia. replace (S s + n)%nat with (s + S n)%nat by lia. lra. }
      rewrite Z by lia. destruct (Nat.ltb_spec k (0 + d)); [auto|lia].
    - apply IH; auto; [|lia|lia]. intros r Hr. apply W. now right. }
  specialize (G 0%nat A v W). rewrite LA in G. apply G; auto; lia.
Qed.
Lemma add_diag_length lambda d A : length A = d -> length (add_diag lambda d A) = d.
Proof. intro L. unfold add_diag. rewrite map2_length; rewrite seq_length; auto. Qed.
Lemma add_diag_width lambda d A : width d A -> width d (add_diag lambda d A).
Proof.
  intros W. unfold add_diag. generalize (seq 0 d) as js. revert W. induction A as [|a A IH]; intros W [|j js] r Hr; cbn in Hr; try easy.
  apply width_cons in W. destruct W as (W1 & W2). destruct Hr as [<-|Hr]; [rewrite vadd_length; auto; rewrite vscale_length, basis_length; auto|]. eapply IH; eauto.
Qed.

(** * The normal equations *)
(** [lambda = 0] without the diagonal. *)
Definition normal_matrix (lambda : option R) (d : nat) (X : list (list R)) : list (list R) :=
  match lambda with None => gram d X | Some l => add_diag l d (gram d X) end.
Definition lam (lambda : option R) : R := match lambda with None => 0 | Some l => l end.
Lemma normal_length l d X : length (normal_matrix l d X) = d.
Proof. destruct l; cbn; [apply add_diag_length|]; apply gram_length. Qed.
Lemma normal_width l d X : width d (normal_matrix l d X).
Proof. destruct l; cbn; [apply add_diag_width|]; apply gram_width. Qed.
Lemma normal_dots l d X v : length v = d -> map (fun a => dot a v) (normal_matrix l d X) = vadd (map (fun a => dot a v) (gram d X)) (vscale (lam l) v).
Proof.
  intro Lv. destruct l; cbn [normal_matrix lam]; [apply add_diag_dots; [apply gram_width|apply gram_length|auto]|].
  assert (G : length (map (fun a => dot a v) (gram d X)) = length v) by (rewrite map_length, gram_length; auto). revert G. generalize (map (fun a => dot a v) (gram d X)) as z. clear.
  revert v. intros v z. revert v. induction z as [|a z IH]; intros [|b v] L; cbn in L; try lia; [reflexivity|]. cbn [vscale map]. unfold vadd, vscale in *. cbn. f_equal; [lra|]. apply IH. lia.
Qed.
Lemma normal_dot l d X u v : width d X -> length u = d -> length v = d ->
  dot u (map (fun a => dot a v) (normal_matrix l d X)) = total (map (fun r => dot r u * dot r v) X) + lam l * dot u v.
Proof.
  intros W Lu Lv. rewrite normal_dots by auto. rewrite dot_vadd_r by (rewrite map_length, gram_length, vscale_length; auto). now rewrite gram_dot, dot_vscale_r.
Qed.
Lemma zeros_of v : (forall a, In a v -> a = 0) -> v = zeros (length v).
Proof. induction v as [|a v IH]; intro H; [reflexivity|]. unfold zeros. cbn. rewrite (H a) by now left. f_equal. apply IH. intros; apply H; now right. Qed.
Lemma null_dots v A : null v A -> map (fun a => dot a v) A = zeros (length A).
Proof. intro N. rewrite <- (map_length (fun a => dot a v) A). apply zeros_of. intros a Ha. apply in_map_iff in Ha. destruct Ha as (b & <- & Hb). auto. Qed.
Lemma sq_pos a : 0 <= a * a.
Proof. apply Rle_0_sqr. Qed.
Lemma normal_null l d X v : 0 <= lam l -> width d X -> length v = d -> null v (normal_matrix l d X) -> (forall r, In r X -> dot r v = 0) /\ lam l * sqn v = 0.
Proof.
  intros Hl W Lv N. apply null_dots in N. pose proof (normal_dot l v v W Lv Lv) as E. rewrite N in E.
  assert (Z : dot v (zeros (length (normal_matrix l d X))) = 0) by (rewrite dot_comm; apply dot_zeros_l). rewrite Z in E. clear Z.
  assert (P : 0 <= total (map (fun r => dot r v * dot r v) X)) by (apply total_nonneg; intros; apply sq_pos).
  assert (Q : 0 <= lam l * dot v v) by (apply Rmult_le_pos; [auto|apply sqn_nonneg]). split; [|unfold sqn; lra].
  intros r Hr. assert (T : dot r v * dot r v = 0). { apply (total_zero (fun r => dot r v * dot r v) X); auto; [intros; apply sq_pos|lra]. } now apply Rsqr_0_uniq.
Qed.
Lemma null_normal d X v : width d X -> length v = d -> (forall r, In r X -> dot r v = 0) -> null v (normal_matrix None d X).
Proof.
  intros W Lv H a Ha. cbn in Ha. apply (In_nth _ _ []) in Ha. destruct Ha as (i & Hi & <-). rewrite gram_length in Hi. rewrite gram_row by auto.
  rewrite (total_ext _ (fun _ => 0)); [rewrite total_const; lra|]. intros r Hr. rewrite H by auto. lra.
Qed.

Lemma total_combine_l {A B} (g : A -> R) (X : list A) : forall (y : list B), length y = length X -> total (map (fun p => g (fst p)) (combine X y)) = total (map g X).
Proof. induction X as [|x X IH]; intros [|a y] L; cbn in L; try lia; [reflexivity|]. cbn. f_equal. apply IH. lia. Qed.
(** The objective at [v] in terms of the objective at a solution [w] of the normal equations. *)
Lemma normal_objective l d X y w v : width d X -> length y = length X -> length w = d -> length v = d ->
  map (fun a => dot a w) (normal_matrix l d X) = vsum d (map2 vscale y X) ->
  total (map (fun p => (snd p - dot (fst p) v) ^ 2) (combine X y)) + lam l * sqn v =
  (total (map (fun p => (snd p - dot (fst p) w) ^ 2) (combine X y)) + lam l * sqn w) + (total (map (fun r => dot r (vsub v w) ^ 2) X) + lam l * sqn (vsub v w)).
Proof.
  intros W Ly Lw Lv E. set (u := vsub v w). assert (Lu : length u = d) by (unfold u; rewrite vsub_length; lia).
  assert (N : total (map (fun r => dot r u * dot r w) X) + lam l * dot u w = total (map (fun p => snd p * dot (fst p) u) (combine X y))).
  { rewrite <- (normal_dot l u w W Lu Lw). rewrite E, dot_comm, tmv_dot by auto. rewrite map2_swap, map2_combine. reflexivity. }
  assert (D : forall p, In p (combine X y) -> (snd p - dot (fst p) v) ^ 2 = ((snd p - dot (fst p) w) ^ 2 + -2 * (snd p * dot (fst p) u)) + (2 * (dot (fst p) u * dot (fst p) w) + dot (fst p) u ^ 2)).
  { intros p Hp. unfold u. rewrite dot_vsub_r by lia. ring. }
  rewrite (total_ext _ _ _ D). rewrite !total_plus, !total_scal, <- N.
  rewrite (total_combine_l (fun r => dot r u * dot r w) X y Ly), (total_combine_l (fun r => dot r u ^ 2) X y Ly).
  assert (Sv : sqn v = sqn w + 2 * dot u w + sqn u).
  { unfold u, sqn. rewrite !dot_vsub_l by lia. rewrite !dot_vsub_r by lia. rewrite (dot_comm w v). ring. }
  rewrite Sv. ring.
Qed.

Definition obj l X y w := total (map (fun p => (snd p - dot (fst p) w) ^ 2) (combine X y)) + lam l * sqn w.
Lemma normal_solution_spec l d X y : 0 <= lam l -> width d X -> length y = length X ->
  (forall v, length v = d -> (forall r, In r X -> dot r v = 0) -> lam l * sqn v = 0 -> v = zeros d) ->
  exists w, normal_solution d (normal_matrix l d X) X y = Ok (Some w) /\ unique_minimum d (obj l X y) w /\
    map (fun a => dot a w) (normal_matrix l d X) = vsum d (map2 vscale y X).
Proof.
  intros Hl W Ly T. unfold normal_solution. rewrite tmv_ok by auto. cbn [bind].
  destruct (@inverse_cols_spec d (normal_matrix l d X)) as (cs & -> & Lc & Wc & S); [apply normal_width|apply normal_length| |].
  { intros v Lv N. destruct (normal_null l Hl W Lv N). auto. }
  set (b := vsum d (map2 vscale y X)). assert (Lb : length b = d) by (apply vsum_length, width_scaled, W).
  set (w := vsum d (map2 vscale b cs)). assert (Lw : length w = d) by (apply vsum_length, width_scaled, Wc).
  assert (E : map (fun a => dot a w) (normal_matrix l d X) = b) by (apply S; auto).
  exists w. split; [reflexivity|]. split; [|exact E]. split; [auto|]. intros v Lv. pose proof (@normal_objective l d X y w v W Ly Lw Lv E) as O.
  fold (obj l X y v) (obj l X y w) in O. assert (Lu : length (vsub v w) = d) by (rewrite vsub_length; lia).
  assert (P1 : 0 <= total (map (fun r => dot r (vsub v w) ^ 2) X)) by (apply total_nonneg; intros; rewrite <- Rsqr_pow2; apply Rle_0_sqr).
  assert (P2 : 0 <= lam l * sqn (vsub v w)) by (apply Rmult_le_pos; [auto|apply sqn_nonneg]). split; [lra|]. intro Q.
  assert (Z : vsub v w = zeros d).
  { apply T; auto; [|lra]. intros r Hr. assert (Z : dot r (vsub v w) ^ 2 = 0).
    { apply (total_zero (fun r => dot r (vsub v w) ^ 2) X); auto; [intros; rewrite <- Rsqr_pow2; apply Rle_0_sqr|lra]. }
    rewrite <- Rsqr_pow2 in Z. now apply Rsqr_0_uniq. }
  apply (proj1 (vsub_self_zero v w ltac:(lia))). rewrite Z. apply dot_zeros_l.
Qed.
Lemma normal_solution_singular d X y v : (0 < d)%nat -> width d X -> length y = length X -> length v = d -> v <> zeros d -> (forall r, In r X -> dot r v = 0) ->
  normal_solution d (gram d X) X y = Ok None.
Proof.
  intros P W Ly Lv Z H. unfold normal_solution. rewrite tmv_ok by auto. cbn [bind].
  rewrite (@inverse_cols_singular d (gram d X) v); auto; [apply gram_width|apply gram_length|]. exact (null_normal v W Lv H).
Qed.

Lemma rss_ext i d X y w : width d X -> length w = ncols i d -> rss i X y w = total (map (fun p => (snd p - dot (fst p) w) ^ 2) (combine (map (ext i) X) y)).
Proof.
  intros W Lw. unfold rss. revert y. induction X as [|x X IH]; intros [|a y]; cbn [map combine]; try reflexivity. apply width_cons in W. destruct W as (W1 & W2).
  cbn [map total fst snd fold_right]. unfold total in IH |- *. cbn [fold_right]. rewrite (IH W2 y). rewrite (@ext_fun i d w x) by auto. reflexivity.
Qed.
Lemma obj_ext l i d X y w : width d X -> length w = ncols i d -> obj l (map (ext i) X) y w = penalised_rss (lam l) i X y w.
Proof. intros W Lw. unfold obj, penalised_rss. now rewrite (@rss_ext i d). Qed.
Lemma unique_minimum_ext n F G w : (forall v, length v = n -> F v = G v) -> unique_minimum n F w -> unique_minimum n G w.
Proof. intros H (L & M). split; [auto|]. intros v Lv. rewrite <- !H by auto. auto. Qed.
