(** Householder reflections and QR. *)
From Coq Require Import Reals Lra.
From Verif Require Import Base Common_Model KDReal_Proofs Impurity_Model Impurity_Spec Impurity_Proofs Vec Stats_Spec Stats_Proofs LossSoftmax_Proofs Linear_Model LinSolve_Proofs Linear_Proofs
  Decomp_Model Decomp_Spec Decomp_Proofs DecompPca_Proofs Gmm_Model Chol_Proofs Linalg_Model Linalg_Spec Linalg_Proofs.
Local Open Scope R_scope.
Set Implicit Arguments.

(** A reflection of vectors of [n] entries, or the identity. *)
Definition good (n : nat) (h : list R * R) : Prop := length (fst h) = n /\ (snd h = 0 \/ snd h * sqn (fst h) = 2).
Lemma reflect_length n h x : length (fst h) = n -> length x = n -> length (reflect h x) = n.
Proof. intros L Lx. unfold reflect. rewrite vsub_length; rewrite ?vscale_length; lia. Qed.
Lemma reflect_dot n h x y : good n h -> length x = n -> length y = n -> dot (reflect h x) (reflect h y) = dot x y.
Proof.
  intros (L & G) Lx Ly. unfold reflect. rewrite dot_vsub_l by (rewrite vscale_length; lia). rewrite !dot_vsub_r by (rewrite vscale_length; lia). rewrite !dot_vscale_l, !dot_vscale_r. fold (sqn (fst h)).
  rewrite (dot_comm x (fst h)). set (a := dot (fst h) x). set (b := dot (fst h) y). set (v := sqn (fst h)) in *. destruct G as [->|G]; [ring|].
  transitivity (dot x y - 2 * snd h * a * b + (snd h * v) * (snd h * a * b)); [ring|]. rewrite G. ring.
Qed.
Lemma reflect_invol n h x : good n h -> length x = n -> reflect h (reflect h x) = x.
Proof.
  intros (L & G) Lx. apply (@list_ext n); [apply reflect_length; auto; apply reflect_length; auto|auto|]. intros i Hi. unfold reflect at 1. rewrite nth_vsub by (rewrite vscale_length, (@reflect_length n); auto). rewrite nth_vscale.
  unfold reflect. rewrite nth_vsub by (rewrite vscale_length; lia). rewrite nth_vscale. rewrite dot_vsub_r by (rewrite vscale_length; lia). rewrite dot_vscale_r. fold (sqn (fst h)). set (a := dot (fst h) x). set (v := sqn (fst h)) in *. set (c := nth i (fst h) 0).
  destruct G as [->|G]; [ring|]. transitivity (nth i x 0 - 2 * snd h * a * c + (snd h * v) * (snd h * a * c)); [ring|]. rewrite G. ring.
Qed.
Lemma reflects_length n hs x : (forall h, In h hs -> good n h) -> length x = n -> length (fold_right reflect x hs) = n.
Proof. intros G L. induction hs as [|h hs IH]; [auto|]. cbn [fold_right]. apply reflect_length; [apply G; now left|]. apply IH. intros; apply G; now right. Qed.
Lemma reflects_dot n hs x y : (forall h, In h hs -> good n h) -> length x = n -> length y = n -> dot (fold_right reflect x hs) (fold_right reflect y hs) = dot x y.
Proof.
  intros G Lx Ly. induction hs as [|h hs IH]; [auto|]. cbn [fold_right]. rewrite (@reflect_dot n) by (try apply reflects_length; try apply G; auto; solve [now left|intros; apply G; now right]). apply IH. intros; apply G; now right.
Qed.
Lemma reflect_vadd n h x y : length (fst h) = n -> length x = n -> length y = n -> reflect h (vadd x y) = vadd (reflect h x) (reflect h y).
Proof.
  intros L Lx Ly. assert (La : length (vadd x y) = n) by (rewrite vadd_length; lia). apply (@list_ext n); [now apply reflect_length|rewrite vadd_length; rewrite !(@reflect_length n); auto|]. intros i Hi. rewrite nth_vadd by (now rewrite !(@reflect_length n)).
  unfold reflect. rewrite !nth_vsub by (rewrite vscale_length; lia). rewrite !nth_vscale, nth_vadd by lia. rewrite dot_vadd_r by lia. ring.
Qed.
Lemma reflect_vscale n h c x : length (fst h) = n -> length x = n -> reflect h (vscale c x) = vscale c (reflect h x).
Proof.
  intros L Lx. apply (@list_ext n); [apply reflect_length; auto; now rewrite vscale_length|rewrite vscale_length; now apply reflect_length|]. intros i Hi. rewrite nth_vscale. unfold reflect. rewrite !nth_vsub by (rewrite !vscale_length; lia). rewrite !nth_vscale, dot_vscale_r. ring.
Qed.
Lemma reflect_zeros n h : length (fst h) = n -> reflect h (zeros n) = zeros n.
Proof. intro L. rewrite (zeros_scale n) at 1. rewrite (@reflect_vscale n) by (auto; apply zeros_length). apply (@list_ext n); [rewrite vscale_length; apply reflect_length; auto; apply zeros_length|apply zeros_length|]. intros i Hi. rewrite nth_vscale, nth_zeros. ring. Qed.
Lemma reflects_vsum n hs xs : (forall h, In h hs -> good n h) -> width n xs -> fold_right reflect (vsum n xs) hs = vsum n (map (fun x => fold_right reflect x hs) xs).
Proof.
  intros G W. induction hs as [|h hs IH]; cbn [fold_right]; [now rewrite map_id|]. rewrite IH by (intros; apply G; now right). assert (Lh : length (fst h) = n) by (apply G; now left).
  assert (W' : width n (map (fun x => fold_right reflect x hs) xs)). { intros r Hr. apply in_map_iff in Hr. destruct Hr as (c & <- & Hc). apply reflects_length; auto. intros; apply G; now right. }
  rewrite <- (map_map (fun x => fold_right reflect x hs) (reflect h)). revert W'. generalize (map (fun x => fold_right reflect x hs) xs) as ys. clear -Lh. intros ys W. induction ys as [|y ys IH]; [now apply reflect_zeros|].
  apply width_cons in W. destruct W as (L & W). cbn [map]. change (vsum n (y :: ys)) with (vadd y (vsum n ys)). change (vsum n (?a :: ?b)) with (vadd a (vsum n b)). rewrite (@reflect_vadd n) by (auto; now apply vsum_length). now rewrite IH.
Qed.
Lemma reflects_vscale n hs c x : (forall h, In h hs -> good n h) -> length x = n -> fold_right reflect (vscale c x) hs = vscale c (fold_right reflect x hs).
Proof.
  intros G L. induction hs as [|h hs IH]; cbn [fold_right]; [auto|]. rewrite IH by (intros; apply G; now right). apply (@reflect_vscale n); [apply G; now left|]. apply reflects_length; auto. intros; apply G; now right.
Qed.

(** * The reflection chosen for a column *)
Lemma nth_app_zeros k v i : nth i (zeros k ++ v) 0 = if (i <? k)%nat then 0 else nth (i - k) v 0.
Proof. destruct (Nat.ltb_spec i k) as [L|G]; [rewrite app_nth1 by (now rewrite zeros_length); apply nth_zeros|]. rewrite app_nth2 by (rewrite zeros_length; lia). now rewrite zeros_length. Qed.
Lemma dot_zeros_app k v x : dot (zeros k ++ v) x = dot v (skipn k x).
Proof. revert x. induction k as [|k IH]; intro x; [reflexivity|]. destruct x as [|a x]; [destruct v; reflexivity|]. change (zeros (S k) ++ v) with (0 :: (zeros k ++ v)). rewrite dot_cons, IH. cbn [skipn]. ring. Qed.
Lemma skipn_nth_cons {A} (z : A) k x : (k < length x)%nat -> skipn k x = nth k x z :: skipn (S k) x.
Proof. revert x. induction k as [|k IH]; intros [|a x] H; cbn in H; try lia; [reflexivity|]. cbn [skipn nth]. rewrite IH by lia. reflexivity. Qed.
(** The column after its reflection: beta in place [k], zeros below. *)
Definition cut (k : nat) (x : list R) (beta : R) : list R := firstn k x ++ beta :: map (fun _ => 0) (skipn (S k) x).
Lemma dot_div u c w : dot (map (fun a => a / c) u) w = dot u w / c.
Proof. revert w. induction u as [|a u IH]; intros [|b w]; [unfold dot, total; cbn; unfold Rdiv; ring|unfold dot, total; cbn; unfold Rdiv; ring|unfold dot, total; cbn; unfold Rdiv; ring|]. cbn [map]. rewrite !dot_cons, IH. unfold Rdiv. ring. Qed.
Lemma nth_map0 (f : R -> R) l i : f 0 = 0 -> nth i (map f l) 0 = f (nth i l 0).
Proof. intro Z. rewrite <- Z at 1. apply map_nth. Qed.
Lemma nth_firstn_lt {A} (z : A) k x i : (i < k)%nat -> nth i (firstn k x) z = nth i x z.
Proof. revert x i. induction k as [|k IH]; intros [|a x] [|i] H; try lia; try reflexivity. cbn. apply IH. lia. Qed.
Lemma nth_cut k x beta i : (k < length x)%nat -> nth i (cut k x beta) 0 = if (i <? k)%nat then nth i x 0 else if (i =? k)%nat then beta else 0.
Proof.
  intro H. unfold cut. destruct (Nat.ltb_spec i k) as [L|G].
  - rewrite app_nth1 by (rewrite firstn_length; lia). now apply nth_firstn_lt.
  - rewrite app_nth2 by (rewrite firstn_length; lia). rewrite firstn_length, Nat.min_l by lia. destruct (Nat.eqb_spec i k) as [->|N]; [now rewrite Nat.sub_diag|]. replace (i - k)%nat with (S (i - k - 1)) by lia. cbn [nth]. now rewrite nth_map0.
Qed.
Lemma cut_length k x beta : (k < length x)%nat -> length (cut k x beta) = length x.
Proof. intro H. unfold cut. rewrite app_length. cbn [length]. rewrite firstn_length, map_length, skipn_length. lia. Qed.
Lemma house_spec n k x : (k < n)%nat -> length x = n -> let '(v, tau, beta) := house k x in
  good n (v, tau) /\ (forall i, (i < k)%nat -> nth i v 0 = 0) /\ reflect (v, tau) x = cut k x beta /\ Rabs beta = sqrt (sqn (skipn k x)).
Proof.
  intros Hk L. unfold house. set (c0 := nth k x 0). set (tail := skipn (S k) x). assert (Lt : length tail = (n - S k)%nat) by (unfold tail; rewrite skipn_length; lia).
  assert (T2 : Rsum (map (fun a => a * a) tail) = sqn tail). { rewrite Rsum_total. unfold sqn, dot. f_equal. clear. induction tail as [|a l IH]; cbn; [auto|now rewrite IH]. }
  rewrite T2. pose proof (skipn_nth_cons 0 (k := k) x ltac:(lia)) as SK. fold c0 tail in SK.
  assert (SQ : sqn (skipn k x) = c0 * c0 + sqn tail) by (rewrite SK; unfold sqn; now rewrite dot_cons).
  destruct (Req_EM_T (sqn tail) 0) as [Z|N].
  - assert (Lv : length (zeros k ++ 1 :: map (fun _ => 0) tail) = n) by (rewrite app_length, zeros_length; cbn [length]; rewrite map_length; lia). split; [split; [exact Lv|now left]|]. split; [intros i Hi; rewrite nth_app_zeros; replace (i <? k)%nat with true by (symmetry; apply Nat.ltb_lt; lia); reflexivity|]. split.
    + apply (@list_ext n); [apply reflect_length; auto|now rewrite cut_length by lia|]. intros i Hi. rewrite nth_cut by lia. unfold reflect. cbn [fst snd]. rewrite nth_vsub by (rewrite vscale_length; lia). rewrite nth_vscale, !Rmult_0_l, Rminus_0_r.
      destruct (Nat.ltb_spec i k); [auto|]. destruct (Nat.eqb_spec i k) as [->|Ni]; [reflexivity|]. pose proof (proj1 (sqn_zero _) Z) as Hz. apply Hz. unfold tail. replace (nth i x 0) with (nth (i - S k) (skipn (S k) x) 0) by (rewrite nth_skipn; f_equal; lia). apply nth_In. rewrite skipn_length. lia.
    + rewrite SQ, Z, Rplus_0_r. fold (Rsqr c0). symmetry. apply sqrt_Rsqr_abs.
  - pose proof (sqn_nonneg tail) as P0. assert (P : 0 < sqn tail) by lra. set (b := sqrt (c0 * c0 + sqn tail)). assert (Pb : 0 < b) by (apply sqrt_lt_R0; nra). assert (Bb : b * b = c0 * c0 + sqn tail) by (apply sqrt_sqrt; nra).
    set (beta := if Rltb c0 0 then b else - b). assert (BB : beta * beta = c0 * c0 + sqn tail) by (unfold beta; destruct (Rltb c0 0); lra). assert (Nb : beta <> 0) by (unfold beta; destruct (Rltb c0 0); lra).
    assert (Nc : c0 - beta <> 0) by (intro X; assert (beta = c0) by lra; nra).
    set (v := zeros k ++ 1 :: map (fun a => a / (c0 - beta)) tail). assert (Lv : length v = n) by (unfold v; rewrite app_length, zeros_length; cbn [length]; rewrite map_length; lia).
    assert (Sv : sqn v = 1 + sqn tail / ((c0 - beta) * (c0 - beta))).
    { unfold sqn at 1. unfold v at 1. rewrite dot_zeros_app. unfold v. rewrite skipn_app, zeros_length, skipn_all2 by (rewrite zeros_length; lia). rewrite Nat.sub_diag. cbn [skipn app]. rewrite dot_cons, dot_div, dot_comm, dot_div. fold (sqn tail). field. auto. }
    assert (St : sqn tail = (beta - c0) * (beta + c0)) by lra.
    split; [split; [exact Lv|right; cbn [fst snd]; rewrite Sv, St; field; split; lra]|]. split; [intros i Hi; unfold v; rewrite nth_app_zeros; replace (i <? k)%nat with true by (symmetry; apply Nat.ltb_lt; lia); reflexivity|].
    assert (Dv : dot v x = - beta). { unfold v. rewrite dot_zeros_app, SK, dot_cons, dot_div. fold (sqn tail). rewrite St. field. auto. }
    split.
    + apply (@list_ext n); [apply reflect_length; auto|now rewrite cut_length by lia|]. intros i Hi. rewrite nth_cut by lia. unfold reflect. cbn [fst snd]. rewrite nth_vsub by (rewrite vscale_length; lia). rewrite nth_vscale, Dv. unfold v. rewrite nth_app_zeros.
      destruct (Nat.ltb_spec i k); [ring|]. destruct (Nat.eqb_spec i k) as [->|Ni]; [rewrite Nat.sub_diag; cbn [nth]; fold c0; field; auto|].
      replace (i - k)%nat with (S (i - S k)) by lia. cbn [nth]. rewrite (nth_map0 (fun a => a / (c0 - beta))) by (unfold Rdiv; ring). unfold tail. rewrite nth_skipn. replace (S k + (i - S k))%nat with i by lia. field. auto.
    + rewrite SQ. fold b. unfold beta. destruct (Rltb c0 0); [apply Rabs_pos_eq; lra|]. rewrite Rabs_Ropp. apply Rabs_pos_eq. lra.
Qed.
(** A reflection leaves alone what is 0 where its vector is not. *)
Lemma reflect_fixed n h k x : length (fst h) = n -> length x = n -> (forall i, (i < k)%nat -> nth i (fst h) 0 = 0) -> (forall i, (k <= i)%nat -> nth i x 0 = 0) -> reflect h x = x.
Proof.
  intros L Lx Hv Hz. assert (D : dot (fst h) x = 0).
  { rewrite (@dot_nths n) by auto. rewrite (total_seq_ext _ (fun _ => 0)); [rewrite total_const; ring|]. intros j _. destruct (Nat.lt_ge_cases j k); [rewrite Hv by auto|rewrite Hz by auto]; ring. }
  unfold reflect. rewrite D. apply (@list_ext n); [rewrite vsub_length; rewrite ?vscale_length; lia|auto|]. intros i Hi. rewrite nth_vsub by (rewrite vscale_length; lia). rewrite nth_vscale. ring.
Qed.

(** * The loop *)
Definition upper_part (j : nat) (c : list R) : list R := map (fun i => if (i <=? j)%nat then nth i c 0 else 0) (seq 0 (length c)).
Lemma upper_part_length j c : length (upper_part j c) = length c.
Proof. unfold upper_part. now rewrite map_length, seq_length. Qed.
Lemma nth_upper_part j c i : nth i (upper_part j c) 0 = if (i <=? j)%nat then nth i c 0 else 0.
Proof.
  destruct (Nat.lt_ge_cases i (length c)) as [L|G]; [unfold upper_part; now rewrite nth_seq_map|]. rewrite nth_overflow by (rewrite upper_part_length; lia). rewrite (nth_overflow c) by lia. now destruct (i <=? j)%nat.
Qed.
Section Loop.
  Variables (nr nc : nat).
  Let K := Nat.min nr nc.
  Lemma householder_spec left : forall k cols, (k + left = K)%nat -> shape nc nr cols ->
    let (hs, cols') := householder left k cols in
    shape nc nr cols' /\ (forall h, In h hs -> good nr h /\ forall i, (i < k)%nat -> nth i (fst h) 0 = 0) /\
    (forall j, (j < k)%nat -> (j < nc)%nat -> nth j cols' [] = nth j cols []) /\
    (forall j, (k <= j < nc)%nat -> fold_right reflect (upper_part j (nth j cols' [])) hs = nth j cols []).
  Proof.
    induction left as [|left IH]; intros k cols E HS; cbn [householder].
    - split; [auto|]. split; [easy|]. split; [auto|]. intros j Hj. cbn [fold_right]. assert (Lj : length (nth j cols []) = nr) by (apply HS, nth_In; destruct HS as (-> & _); lia).
      apply (@list_ext nr); [now rewrite upper_part_length|auto|]. intros i Hi. rewrite nth_upper_part. replace (i <=? j)%nat with true; [reflexivity|]. symmetry. apply Nat.leb_le. unfold K in E. lia.
    - assert (Hkr : (k < nr)%nat) by (unfold K in E; lia). assert (Hkc : (k < nc)%nat) by (unfold K in E; lia). assert (HS0 := HS). destruct HS0 as (Lc & Wc). assert (Lk : length (nth k cols []) = nr) by (apply Wc, nth_In; lia).
      pose proof (@house_spec nr k (nth k cols []) Hkr Lk) as H. destruct (house k (nth k cols [])) as [[v tau] beta]. destruct H as (G & V & F & _).
      set (step := fun j c => if (j <? k)%nat then c else if (j =? k)%nat then set_nth (nth k cols []) k beta else reflect (v, tau) c).
      assert (Ln : length (map2 step (seq 0 (length cols)) cols) = nc) by (rewrite map2_length; rewrite seq_length; auto).
      assert (Nt : forall j, (j < nc)%nat -> nth j (map2 step (seq 0 (length cols)) cols) [] = step j (nth j cols [])).
      { intros j Hj. clear -Hj Lc. rewrite <- Lc in Hj. clear Lc. assert (X : forall l a i, (i < length l)%nat -> nth i (map2 step (seq a (length l)) l) [] = step (a + i)%nat (nth i l [])).
        { induction l as [|c l IH]; intros a i Hi; cbn in Hi; [lia|]. destruct i as [|i]; cbn [length seq map2 nth]; [now rewrite Nat.add_0_r|]. rewrite IH by lia. f_equal. lia. }
        now rewrite (X cols 0%nat j Hj). }
      set (cols1 := map2 step (seq 0 (length cols)) cols) in *.
      assert (HS1 : shape nc nr cols1).
      { split; [exact Ln|]. intros r Hr. apply (In_nth_lt []) in Hr. destruct Hr as (j & Hj & <-). rewrite Ln in Hj. rewrite Nt by auto. assert (Lj : length (nth j cols []) = nr) by (apply Wc, nth_In; lia). unfold step.
        destruct (j <? k)%nat; [auto|]. destruct (j =? k)%nat; [now rewrite set_nth_length|]. apply reflect_length; [apply G|auto]. }
      specialize (IH (S k) cols1 ltac:(lia) HS1). destruct (householder left (S k) cols1) as (hs, cols2). destruct IH as (S2 & H2 & Old & New).
      assert (Gs : forall h, In h ((v, tau) :: hs) -> good nr h /\ forall i, (i < k)%nat -> nth i (fst h) 0 = 0).
      { intros h [<-|Hh]; [split; auto|]. destruct (H2 h Hh) as (A & B). split; [auto|]. intros i Hi. apply B. lia. }
      split; [auto|]. split; [auto|]. split.
      + intros j Hj Hn. rewrite Old by lia. rewrite Nt by auto. unfold step. replace (j <? k)%nat with true by (symmetry; apply Nat.ltb_lt; lia). reflexivity.
      + intros j Hj. cbn [fold_right]. assert (Lj : length (nth j cols []) = nr) by (apply Wc, nth_In; lia). destruct (Nat.eq_dec j k) as [->|Nj].
        * rewrite Old by lia. rewrite Nt by auto. unfold step. rewrite Nat.ltb_irrefl, Nat.eqb_refl.
          assert (U : upper_part k (set_nth (nth k cols []) k beta) = cut k (nth k cols []) beta).
          { apply (@list_ext nr); [now rewrite upper_part_length, set_nth_length|rewrite cut_length; lia|]. intros i Hi. rewrite nth_upper_part, nth_cut by lia. rewrite set_nth_nth. replace (k <? length (nth k cols []))%nat with true by (symmetry; apply Nat.ltb_lt; lia). rewrite andb_true_r.
            destruct (Nat.leb_spec i k), (Nat.ltb_spec i k), (Nat.eqb_spec i k); try lia; reflexivity. }
          rewrite U. assert (Fx : fold_right reflect (cut k (nth k cols []) beta) hs = cut k (nth k cols []) beta).
          { clear -H2 Lk Hkr. induction hs as [|h hs IH]; [auto|]. cbn [fold_right]. rewrite IH by (intros; apply H2; now right). destruct (H2 h (or_introl eq_refl)) as ((Lh & _) & Vh). apply (@reflect_fixed nr h (S k)); auto; [rewrite cut_length; lia|].
            intros i Hi. rewrite nth_cut by lia. destruct (Nat.ltb_spec i k), (Nat.eqb_spec i k); try lia. reflexivity. }
          rewrite Fx, <- F. now apply (@reflect_invol nr).
        * rewrite New by lia. rewrite Nt by lia. unfold step. replace (j <? k)%nat with false by (symmetry; apply Nat.ltb_ge; lia). replace (j =? k)%nat with false by (symmetry; apply Nat.eqb_neq; lia). now apply (@reflect_invol nr).
  Qed.
End Loop.
