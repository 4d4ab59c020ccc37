(** Elimination with pivots finds the solution of a square system exactly when the matrix has a trivial kernel. *)
From Coq Require Import Reals Lra Lia Permutation.
From Verif Require Import Base Common_Model RDR_Proofs KDReal_Proofs Impurity_Model Impurity_Spec Impurity_Proofs Vec Loss_Model Linear_Model.
Local Open Scope R_scope.
Set Implicit Arguments.

Lemma take_pivot_perm es : forall e p r, take_pivot e es = (p, r) -> Permutation (e :: es) (p :: r).
Proof.
  induction es as [|e' es IH]; intros e p r H; cbn in H; [injection H as <- <-; auto|].
  destruct (Rltb _ _); destruct (take_pivot _ es) as (p', r') eqn:E; injection H as <- <-.
  - apply perm_trans with (e :: p' :: r'); [apply perm_skip; eauto|apply perm_swap].
  - apply perm_trans with (e' :: e :: es); [apply perm_swap|]. apply perm_trans with (e' :: p' :: r'); [apply perm_skip; eauto|apply perm_swap].
Qed.
Lemma take_pivot_max es : forall e p r, take_pivot e es = (p, r) -> forall a, In a (e :: es) -> Rabs (lead a) <= Rabs (lead p).
Proof.
  induction es as [|e' es IH]; intros e p r H a Ha; cbn in H.
  - injection H as <- <-. destruct Ha as [<-|[]]. lra.
  - destruct (Rltb (Rabs (lead e)) (Rabs (lead e'))) eqn:L; destruct (take_pivot _ es) as (p', r') eqn:E; injection H as <- <-.
    + apply Rltb_true in L. destruct Ha as [<-|Ha]; [|eapply IH; eauto].
      pose proof (IH _ _ _ E e' (or_introl eq_refl)). lra.
    + apply Rltb_false in L. destruct Ha as [<-|[<-|Ha]]; [eapply IH; eauto; now left| |eapply IH; eauto; now right].
      pose proof (IH _ _ _ E e (or_introl eq_refl)). lra.
Qed.

Definition solves (x : list R) (es : list equation) : Prop := forall e, In e es -> dot (fst e) x = snd e.
Definition kernel (x : list R) (es : list equation) : Prop := forall e, In e es -> dot (fst e) x = 0.
Definition sized (d : nat) (es : list equation) : Prop := forall e, In e es -> length (fst e) = d.

Lemma eliminate_dot d (p e : equation) a x : length (fst p) = S d -> length (fst e) = S d -> lead p <> 0 ->
  dot (fst e) (a :: x) = dot (fst (eliminate p e)) x + lead e / lead p * dot (fst p) (a :: x).
Proof.
  destruct p as (cp, bp), e as (ce, be). unfold eliminate, lead. cbn [fst snd]. destruct cp as [|p0 cp], ce as [|e0 ce]; cbn [length]; try lia. cbn [hd tl].
  intros L1 L2 N. rewrite dot_vsub_l by (rewrite vscale_length; lia). rewrite dot_vscale_l, !dot_cons. field. auto.
Qed.
Lemma eliminate_sized d p e : length (fst p) = S d -> length (fst e) = S d -> length (fst (eliminate p e)) = d.
Proof.
  destruct p as (cp, bp), e as (ce, be). unfold eliminate, lead. cbn [fst snd]. destruct cp as [|p0 cp], ce as [|e0 ce]; cbn [length]; try lia. cbn [hd tl].
  intros L1 L2. rewrite vsub_length by (rewrite vscale_length; lia). lia.
Qed.

Lemma solve_sound d : forall es x, sized d es -> length es = d -> solve d es = Some x -> length x = d /\ solves x es /\ forall x', length x' = d -> solves x' es -> x' = x.
Proof.
  induction d as [|d IH]; intros es x Sz L H.
  - destruct es; [|cbn in L; lia]. cbn in H. injection H as <-. repeat split; [intros e []|]. intros x' Lx _. destruct x'; [auto|discriminate].
  - destruct es as [|e es]; cbn [solve] in H; [discriminate|]. destruct (take_pivot e es) as (p, r) eqn:T.
    pose proof (take_pivot_perm _ _ T) as P. destruct (Req_EM_T (lead p) 0) as [|N]; [discriminate|].
    destruct (solve d (map (eliminate p) r)) as [z|] eqn:Z; [|discriminate]. injection H as <-.
    assert (Sp : length (fst p) = S d) by (apply Sz; eapply Permutation_in; [symmetry; exact P|now left]).
    assert (Sr : forall e, In e r -> length (fst e) = S d) by (intros a Ha; apply Sz; eapply Permutation_in; [symmetry; exact P|now right]).
    apply IH in Z. 2: { intros a Ha. apply in_map_iff in Ha. destruct Ha as (b & <- & Hb). apply eliminate_sized; auto. }
    2: { rewrite map_length. apply Permutation_length in P. cbn in P, L. lia. }
    destruct Z as (Lz & Sol & U). split; [cbn; lia|]. assert (Pd : forall a, dot (fst p) (a :: z) = lead p * a + dot (tl (fst p)) z).
    { intro a. destruct p as ([|p0 cp], bp); cbn in Sp |- *; [lia|]. unfold lead. cbn. reflexivity. }
    split.
    + intros a Ha. assert (E : dot (fst p) ((snd p - dot (tl (fst p)) z) / lead p :: z) = snd p) by (rewrite Pd; field; auto).
      eapply Permutation_in in Ha; [|exact P]. destruct Ha as [<-|Ha]; [exact E|].
      rewrite (@eliminate_dot d p a) by auto. rewrite E. rewrite (Sol (eliminate p a)) by (apply in_map; auto). unfold eliminate. cbn. field. auto.
    + intros [|a x'] Lx' Sol'; [discriminate|]. cbn in Lx'.
      assert (Hp : dot (fst p) (a :: x') = snd p) by (apply Sol'; eapply Permutation_in; [symmetry; exact P|now left]).
      assert (x' = z) as ->.
      { apply U; [lia|]. intros b Hb. apply in_map_iff in Hb. destruct Hb as (c & <- & Hc).
        assert (Hc' : dot (fst c) (a :: x') = snd c) by (apply Sol'; eapply Permutation_in; [symmetry; exact P|now right]).
        rewrite (@eliminate_dot d p c) in Hc' by auto. rewrite Hp in Hc'. unfold eliminate at 2. cbn [snd]. lra. }
      rewrite Pd in Hp. f_equal. apply (Rmult_eq_reg_l (lead p)); [|auto]. replace (lead p * ((snd p - dot (tl (fst p)) z) / lead p)) with (snd p - dot (tl (fst p)) z) by (field; auto). lra.
Qed.
Lemma solve_none d : forall es, sized d es -> length es = d -> solve d es = None -> exists v, length v = d /\ v <> zeros d /\ kernel v es.
Proof.
  induction d as [|d IH]; intros es Sz L H; [destruct es; discriminate|].
  destruct es as [|e es]; [discriminate|]. cbn [solve] in H. destruct (take_pivot e es) as (p, r) eqn:T.
  pose proof (take_pivot_perm _ _ T) as P. assert (M : forall a, In a (e :: es) -> Rabs (lead a) <= Rabs (lead p)) by (intros a Ha; eapply take_pivot_max; eauto).
  assert (Sp : length (fst p) = S d) by (apply Sz; eapply Permutation_in; [symmetry; exact P|now left]).
  assert (Sr : forall e, In e r -> length (fst e) = S d) by (intros a Ha; apply Sz; eapply Permutation_in; [symmetry; exact P|now right]).
  destruct (Req_EM_T (lead p) 0) as [Z|N].
  - exists (1 :: zeros d). split; [cbn; now rewrite zeros_length|]. split; [unfold zeros; cbn; intro Q; injection Q; lra|].
    intros a Ha. specialize (M a Ha). rewrite Z, Rabs_R0 in M. assert (A : lead a = 0).
    { pose proof (Rabs_pos (lead a)). destruct (Req_dec (lead a) 0) as [|Q]; auto. apply Rabs_no_R0 in Q. lra. }
    specialize (Sz a Ha). destruct a as ([|a0 ca], ba); cbn in Sz; [lia|]. unfold lead in A. cbn in A. cbn [fst]. rewrite dot_cons, (dot_comm ca), dot_zeros_l. lra.
  - destruct (solve d (map (eliminate p) r)) as [z|] eqn:E; [discriminate|]. apply IH in E.
    2: { intros a Ha. apply in_map_iff in Ha. destruct Ha as (b & <- & Hb). apply eliminate_sized; auto. }
    2: { rewrite map_length. apply Permutation_length in P. cbn in P, L. lia. }
    destruct E as (v & Lv & Nv & K). exists (- dot (tl (fst p)) v / lead p :: v). split; [cbn; lia|]. split; [unfold zeros in *; cbn; congruence|].
    assert (Hp : dot (fst p) (- dot (tl (fst p)) v / lead p :: v) = 0).
    { destruct p as ([|p0 cp], bp); cbn in Sp; [lia|]. cbn [fst tl]. rewrite dot_cons. unfold lead. cbn [fst hd]. field. exact N. }
    intros a Ha. eapply Permutation_in in Ha; [|exact P]. destruct Ha as [<-|Ha]; [exact Hp|].
    rewrite (@eliminate_dot d p a) by auto. rewrite Hp. rewrite (K (eliminate p a)) by (apply in_map; auto). lra.
Qed.

(** The rows of a square matrix. *)
Definition null (v : list R) (A : list (list R)) : Prop := forall a, In a A -> dot a v = 0.
Lemma combine_In_l {A B} (l : list A) : forall (l' : list B), length l = length l' -> forall a, In a l -> exists b, In (a, b) (combine l l').
Proof.
  induction l as [|x l IH]; intros [|y l'] L a Ha; cbn in *; try lia; try easy. destruct Ha as [<-|Ha]; [eauto|].
  destruct (IH l' ltac:(lia) a Ha) as (b & Hb). eauto.
Qed.
Lemma sized_combine d A b : width d A -> sized d (combine A b).
Proof. intros W e He. destruct e as (a, c). apply in_combine_l in He. cbn. auto. Qed.
Lemma solves_combine A : forall b x, length A = length b -> solves x (combine A b) <-> map (fun a => dot a x) A = b.
Proof.
  induction A as [|a A IH]; intros [|c b] x L; cbn in L; try lia; [split; [auto|intros _ e []]|].
  specialize (IH b x ltac:(lia)). cbn. split.
  - intro H. f_equal; [apply (H (a, c)); now left|]. apply IH. intros e He. apply H. now right.
  - intro H. injection H as H1 H2. intros e [<-|He]; [exact H1|]. apply IH; auto.
Qed.
Lemma basis_length d j : length (basis d j) = d.
Proof. unfold basis. rewrite set_nth_length. apply zeros_length. Qed.
Lemma solve_trivial d A b : width d A -> length A = d -> length b = d -> (forall v, length v = d -> null v A -> v = zeros d) ->
  exists x, solve d (combine A b) = Some x /\ length x = d /\ map (fun a => dot a x) A = b.
Proof.
  intros W LA Lb T. assert (Sz := sized_combine b W). assert (L : length (combine A b) = d) by (rewrite combine_length; lia).
  destruct (solve d (combine A b)) as [x|] eqn:E.
  - destruct (solve_sound Sz L E) as (Lx & Sol & _). exists x. split; [auto|]. split; [auto|]. apply solves_combine; [lia|auto].
  - destruct (solve_none Sz L E) as (v & Lv & Nv & K). exfalso. apply Nv, T; [auto|]. intros a Ha. destruct (@combine_In_l _ _ A b ltac:(lia) a Ha) as (c & Hc). exact (K _ Hc).
Qed.
Lemma solve_singular d A b v : width d A -> length A = d -> length b = d -> length v = d -> null v A -> v <> zeros d -> solve d (combine A b) = None.
Proof.
  intros W LA Lb Lv N Z. assert (Sz := sized_combine b W). assert (L : length (combine A b) = d) by (rewrite combine_length; lia).
  destruct (solve d (combine A b)) as [x|] eqn:E; [|auto]. exfalso. destruct (solve_sound Sz L E) as (Lx & Sol & U).
  assert (Q : vadd x v = x).
  { apply U; [rewrite vadd_length; lia|]. intros e He. rewrite dot_vadd_r by lia. rewrite (Sol e He). destruct e as (a, c). apply in_combine_l in He. cbn [fst snd] in *. rewrite (N a He). lra. }
  apply Z. clear - Q Lx Lv. rewrite <- Lx in *. clear Lx. revert v Q Lv. induction x as [|a x IH]; intros [|b v] Q Lv; cbn in *; try lia; [reflexivity|]. injection Q as Q1 Q2. unfold zeros. cbn. f_equal; [lra|]. apply IH; [exact Q2|lia].
Qed.

Lemma all_some_Some {A} (l : list (option A)) r : all_some l = Some r <-> l = map Some r.
Proof.
  revert r. induction l as [|[a|] l IH]; intros r; cbn.
  - split; [intro H; injection H as <-; auto|]. destruct r; [auto|discriminate].
  - destruct (all_some l) as [r'|] eqn:E; split; intro H.
    + injection H as <-. cbn. f_equal. now apply IH.
    + destruct r as [|b r]; [discriminate|]. cbn in H. injection H as -> H. apply IH in H. congruence.
    + discriminate.
    + destruct r as [|b r]; [discriminate|]. cbn in H. injection H as -> H. apply IH in H. congruence.
  - split; [discriminate|]. destruct r; discriminate.
Qed.
Lemma all_some_None {A} (l : list (option A)) : In None l -> all_some l = None.
Proof. induction l as [|[a|] l IH]; cbn; [easy| |auto]. intros [H|H]; [discriminate|]. now rewrite IH. Qed.

(** A combination of the columns of the inverse solves the system. *)
Lemma set_nth_nth {A} (l : list A) : forall j a i z, nth i (set_nth l j a) z = if ((i =? j) && (j <? length l))%nat then a else nth i l z.
Proof.
  induction l as [|b l IH]; intros [|j] a [|i] z; cbn [set_nth nth length]; auto; try apply IH.
  all: now rewrite andb_false_r.
Qed.
Lemma nth_zeros d i : nth i (zeros d) 0 = 0.
Proof. unfold zeros. revert i. induction d as [|d IH]; intros [|i]; cbn; auto. Qed.
Lemma nth_basis d j i : (j < d)%nat -> nth i (basis d j) 0 = if (i =? j)%nat then 1 else 0.
Proof. intro L. unfold basis. rewrite set_nth_nth, zeros_length, nth_zeros. apply Nat.ltb_lt in L. rewrite L, andb_true_r. reflexivity. Qed.
Lemma nth_dots (A : list (list R)) x i : nth i (map (fun a => dot a x) A) 0 = dot (nth i A []) x.
Proof. rewrite <- (map_nth (fun a => dot a x) A [] i). reflexivity. Qed.

Lemma dot_vsum_r d xs c : width d xs -> dot c (vsum d xs) = total (map (fun x => dot c x) xs).
Proof. intro W. rewrite dot_comm, dot_vsum by auto. apply total_ext. intros x _. apply dot_comm. Qed.
Lemma width_map2_vscale d b : forall cs, width d cs -> width d (map2 vscale b cs).
Proof.
  induction b as [|x b IH]; intros [|c cs] W e He; cbn in He; try easy. apply width_cons in W. destruct W as (W1 & W2).
  destruct He as [<-|He]; [now rewrite vscale_length|]. exact (IH cs W2 e He).
Qed.
Lemma total_map2 {B} (f : list R -> R) (b : list R) : forall (cs : list B) (g : R -> B -> list R),
  total (map f (map2 g b cs)) = total (map2 (fun x c => f (g x c)) b cs).
Proof. induction b as [|x b IH]; intros [|c cs] g; cbn; auto. fold (total (map f (map2 g b cs))). now rewrite IH. Qed.
Lemma kron_sum (b : list R) : forall i k, (i < k + length b)%nat -> (k <= i)%nat ->
  total (map2 (fun x j => x * (if (i =? j)%nat then 1 else 0)) b (seq k (length b))) = nth (i - k) b 0.
Proof.
  induction b as [|x b IH]; intros i k L1 L2; cbn [length] in *; [lia|]. cbn [seq map2]. unfold total. cbn [fold_right]. fold (total (map2 (fun x j => x * (if (i =? j)%nat then 1 else 0)) b (seq (S k) (length b)))).
  destruct (Nat.eqb_spec i k) as [->|N].
  - rewrite Nat.sub_diag. cbn [nth]. assert (Z : forall b k', (k < k')%nat -> total (map2 (fun x j => x * (if (k =? j)%nat then 1 else 0)) b (seq k' (length b))) = 0).
    { clear. intro b. induction b as [|x b IH]; intros k' L; cbn [length seq map2]; [reflexivity|]. unfold total. cbn [fold_right].
      fold (total (map2 (fun x j => x * (if (k =? j)%nat then 1 else 0)) b (seq (S k') (length b)))). rewrite IH by lia. destruct (Nat.eqb_spec k k'); [lia|lra]. }
    rewrite Z by lia. lra.
  - rewrite IH by lia. replace (i - k)%nat with (S (i - S k))%nat by lia. cbn [nth]. lra.
Qed.

Lemma inverse_cols_spec d A : width d A -> length A = d -> (forall v, length v = d -> null v A -> v = zeros d) ->
  exists cs, inverse_cols d A = Some cs /\ length cs = d /\ width d cs /\
  forall b, length b = d -> map (fun a => dot a (vsum d (map2 vscale b cs))) A = b.
Proof.
  intros W LA T. assert (H : forall js, (forall j, In j js -> (j < d)%nat) -> exists cs, map (fun j => solve d (combine A (basis d j))) js = map Some cs /\ length cs = length js /\ width d cs /\
    Forall2 (fun j c => map (fun a => dot a c) A = basis d j) js cs).
  { induction js as [|j js IH]; intro Hj; [exists []; repeat split; auto; intros ? []|]. destruct IH as (cs & E & L & Wc & F); [intros; apply Hj; now right|].
    destruct (@solve_trivial d A (basis d j) W LA (basis_length d j) T) as (x & Ex & Lx & Sx). exists (x :: cs). cbn. rewrite Ex, E, L. split; [auto|]. split; [auto|]. split; [|auto].
    intros y [<-|Hy]; auto. }
  destruct (H (seq 0 d)) as (cs & E & L & Wc & F); [intros j Hj; apply in_seq in Hj; lia|]. rewrite seq_length in L.
  exists cs. split; [apply all_some_Some, E|]. repeat split; auto. intros b Lb.
  apply nth_ext with (d := 0) (d' := 0); [rewrite map_length; lia|]. intros i Hi. rewrite map_length in Hi. rewrite nth_dots.
  rewrite dot_vsum_r by (apply width_map2_vscale; auto). rewrite total_map2.
  assert (G : forall js cs', Forall2 (fun j c => map (fun a => dot a c) A = basis d j) js cs' -> forall b, (forall j, In j js -> (j < d)%nat) -> map2 (fun x c => dot (nth i A []) (vscale x c)) b cs' = map2 (fun x j => x * (if (i =? j)%nat then 1 else 0)) b js).
  { clear - Hi. intros js cs' F. induction F as [|j c js cs' E F IH]; intros [|x b] Hj; cbn; auto. f_equal; [|apply IH; intros; apply Hj; now right].
    rewrite dot_vscale_r. f_equal. rewrite <- nth_dots, E. apply nth_basis. apply Hj. now left. }
  rewrite (G _ _ F b) by (intros j Hj; apply in_seq in Hj; lia). rewrite <- Lb. rewrite kron_sum by lia. f_equal. lia.
Qed.
Lemma inverse_cols_singular d A v : (0 < d)%nat -> width d A -> length A = d -> length v = d -> null v A -> v <> zeros d -> inverse_cols d A = None.
Proof.
  intros P W LA Lv N Z. apply all_some_None. apply in_map_iff. exists 0%nat. split; [|apply in_seq; lia]. eapply solve_singular; eauto. apply basis_length.
Qed.

(** A homogeneous system of fewer equations than unknowns has a non-trivial solution. *)
Lemma wide_kernel d X : width d X -> (length X < d)%nat -> exists v, length v = d /\ v <> zeros d /\ null v X.
Proof.
  intros W L. set (A := X ++ repeat (zeros d) (d - length X)). assert (WA : width d A).
  { intros a Ha. apply in_app_or in Ha. destruct Ha as [Ha|Ha]; [auto|]. apply repeat_spec in Ha. subst. apply zeros_length. }
  assert (LA : length A = d) by (unfold A; rewrite app_length, repeat_length; lia).
  destruct (solve d (combine A (repeat 1 d))) as [x|] eqn:E.
  - exfalso. assert (LC : length (combine A (repeat 1 d)) = d) by (rewrite combine_length, repeat_length; lia). destruct (solve_sound (sized_combine (repeat 1 d) WA) LC E) as (Lx & Sol & _).
    apply solves_combine in Sol; [|rewrite repeat_length; auto]. assert (Z : In (zeros d) A) by (apply in_or_app; right; destruct (d - length X)%nat eqn:Q; [lia|now left]).
    apply (in_map (fun a => dot a x)) in Z. rewrite Sol, dot_zeros_l in Z. apply repeat_spec in Z. lra.
  - assert (LC : length (combine A (repeat 1 d)) = d) by (rewrite combine_length, repeat_length; lia). destruct (solve_none (sized_combine (repeat 1 d) WA) LC E) as (v & Lv & Nv & K).
    exists v. repeat split; auto. intros a Ha. destruct (@combine_In_l _ _ A (repeat 1 d)) with (a := a) as (c & Hc); [rewrite repeat_length; lia|apply in_or_app; auto|]. exact (K _ Hc).
Qed.
