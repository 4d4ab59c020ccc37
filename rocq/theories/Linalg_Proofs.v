(** Elimination with row or full pivoting. *)
From Coq Require Import Reals Lra.
From Verif Require Import Base Common_Model KDReal_Proofs Impurity_Model Impurity_Spec Impurity_Proofs Vec Stats_Spec Stats_Proofs LossSoftmax_Proofs Linear_Model LinSolve_Proofs Linear_Proofs
  Decomp_Model Decomp_Spec Decomp_Proofs DecompPca_Proofs Det_Spec Det_Proofs Linalg_Model Linalg_Spec.
Local Open Scope R_scope.
Set Implicit Arguments.

(** * Lists *)
Lemma first_max_spec {A} (f : A -> R) l : forall best, let m := first_max f best l in (m = best \/ In m l) /\ f best <= f m /\ forall a, In a l -> f a <= f m.
Proof.
  induction l as [|a l IH]; intro best; cbn [first_max]; [split; [auto|split; [lra|easy]]|]. cbv zeta in *. destruct (Rltb (f best) (f a)) eqn:E.
  - apply Rltb_true in E. destruct (IH a) as (I & B & M). split; [destruct I as [->|I]; right; [now left|now right]|]. split; [lra|]. intros c [<-|Hc]; auto.
  - assert (f a <= f best) by (destruct (Rle_or_lt (f a) (f best)) as [|X]; [auto|apply Rltb_true in X; congruence]).
    destruct (IH best) as (I & B & M). split; [destruct I as [->|I]; [now left|right; now right]|]. split; [auto|]. intros c [<-|Hc]; [lra|auto].
Qed.
Lemma set_nth_length {A} (l : list A) : forall i a, length (set_nth l i a) = length l.
Proof. induction l as [|b l IH]; intros [|i] a; cbn; auto. Qed.
Lemma swap_length {A} (z : A) k l x : length (swap z k l x) = length x.
Proof. unfold swap. now rewrite !set_nth_length. Qed.
Lemma nth_swap {A} (z : A) k l x i : (k < length x)%nat -> (l < length x)%nat -> nth i (swap z k l x) z = nth (swp k l i) x z.
Proof.
  intros Hk Hl. unfold swap, swp. rewrite !set_nth_nth, set_nth_length. apply Nat.ltb_lt in Hk, Hl. rewrite Hk, Hl, !andb_true_r.
  destruct (Nat.eqb_spec i l), (Nat.eqb_spec i k); subst; reflexivity.
Qed.
Lemma swp_lt k l n i : (k < n)%nat -> (l < n)%nat -> (i < n)%nat -> (swp k l i < n)%nat.
Proof. unfold swp. destruct (i =? k)%nat, (i =? l)%nat; lia. Qed.
Lemma swp_invol k l i : swp k l (swp k l i) = i.
Proof. unfold swp. destruct (Nat.eqb_spec i k), (Nat.eqb_spec i l); subst; repeat (rewrite ?Nat.eqb_refl; match goal with |- context [(?a =? ?b)%nat] => destruct (Nat.eqb_spec a b) | _ => idtac end); congruence. Qed.
Lemma nodup_nth {A} (z : A) l : (forall i j, (i < length l)%nat -> (j < length l)%nat -> nth i l z = nth j l z -> i = j) -> NoDup l.
Proof. intro H. apply (NoDup_nth l z). exact H. Qed.
Lemma swap_perm k l n (p : list nat) : Permutation p (seq 0 n) -> (k < n)%nat -> (l < n)%nat -> Permutation (swap 0%nat k l p) (seq 0 n).
Proof.
  intros P Hk Hl. assert (L : length p = n) by (rewrite (Permutation_length P); apply seq_length). apply (Permutation_trans (l' := p)); [|exact P].
  assert (N : NoDup p) by (apply (Permutation_NoDup (Permutation_sym P)), seq_NoDup). assert (Ns : NoDup (swap 0%nat k l p)).
  { apply (nodup_nth 0%nat). rewrite swap_length, L. intros i j Hi Hj. rewrite !nth_swap by lia. intro E. apply (proj1 (NoDup_nth p 0%nat) N) in E; [|rewrite L; now apply swp_lt|rewrite L; now apply swp_lt].
    rewrite <- (swp_invol k l i), E. apply swp_invol. }
  apply NoDup_Permutation_bis; auto; [rewrite swap_length; lia|]. intros a Ha. apply (In_nth _ _ 0%nat) in Ha. destruct Ha as (i & Hi & <-). rewrite swap_length in Hi. rewrite nth_swap by lia. apply nth_In. rewrite L. apply swp_lt; lia.
Qed.
Lemma entry_swap_rows nr nc A k l i j : shape nr nc A -> (k < nr)%nat -> (l < nr)%nat -> entry (swap [] k l A) i j = entry A (swp k l i) j.
Proof. intros (L & _) Hk Hl. unfold entry. rewrite nth_swap by (rewrite L; auto). reflexivity. Qed.
Lemma In_nth_lt {A} (z : A) (l : list A) a : In a l -> exists i, (i < length l)%nat /\ nth i l z = a.
Proof. intro H. apply (In_nth _ _ z) in H. destruct H as (i & Hi & E). eauto. Qed.
Lemma swap_rows_shape nr nc (A : list (list R)) k l : shape nr nc A -> (k < nr)%nat -> (l < nr)%nat -> shape nr nc (swap [] k l A).
Proof.
  intros (L & W) Hk Hl. split; [now rewrite swap_length|]. intros r Hr. apply (In_nth_lt []) in Hr. destruct Hr as (i & Hi & <-). rewrite swap_length in Hi. rewrite nth_swap by lia. apply W, nth_In. rewrite L. apply swp_lt; lia.
Qed.
Lemma swap_cols_shape nr nc (A : list (list R)) k l : shape nr nc A -> shape nr nc (map (swap 0 k l) A).
Proof. intros (L & W). split; [now rewrite map_length|]. intros r Hr. apply in_map_iff in Hr. destruct Hr as (c & <- & Hc). rewrite swap_length. auto. Qed.
Lemma entry_swap_cols nr nc A k l i j : shape nr nc A -> (k < nc)%nat -> (l < nc)%nat -> (i < nr)%nat -> entry (map (swap 0 k l) A) i j = entry A i (swp k l j).
Proof.
  intros (L & W) Hk Hl Hi. unfold entry. rewrite (nth_indep _ [] (swap 0 k l [])) by (rewrite map_length; lia). rewrite map_nth. assert (Lr : length (nth i A []) = nc) by (apply W, nth_In; lia). rewrite nth_swap by lia. reflexivity.
Qed.
Lemma entry_table nr nc (f : nat -> nat -> R) i j : (i < nr)%nat -> (j < nc)%nat -> entry (map (fun i => map (f i) (seq 0 nc)) (seq 0 nr)) i j = f i j.
Proof. intros Hi Hj. unfold entry. rewrite (nth_seq_map (fun i => map (f i) (seq 0 nc)) [] Hi). now apply nth_seq_map. Qed.
Lemma table_shape nr nc (f : nat -> nat -> R) : shape nr nc (map (fun i => map (f i) (seq 0 nc)) (seq 0 nr)).
Proof. split; [now rewrite map_length, seq_length|]. intros r Hr. apply in_map_iff in Hr. destruct Hr as (i & <- & _). now rewrite map_length, seq_length. Qed.

(** * The determinant by partial pivoting *)
Lemma det_swap d A i : shape (S d) (S d) A -> (0 < i < S d)%nat -> det (S d) (swap [] 0 i A) = - det (S d) A.
Proof.
  intros H Hi. unfold det. rewrite <- (@laplace_swap (S d) (entry A) 0 (i - 1)) by lia. replace (S (0 + (i - 1))) with i by lia. apply laplace_ext. intros a b _ _. apply (@entry_swap_rows (S d) (S d)); auto; lia.
Qed.
Definition prod (l : list R) : R := fold_right Rmult 1 l.
Lemma swp_self k i : swp k k i = i.
Proof. unfold swp. destruct (Nat.eqb_spec i k); auto. Qed.
Lemma partial_lu_det d : forall A, shape d d A -> let (s, diag) := partial_lu d A in (s = 1 \/ s = -1) /\ s * prod diag = det d A.
Proof.
  induction d as [|d IH]; intros A H; cbn [partial_lu]; [split; [now left|unfold det, prod; cbn; ring]|].
  destruct H as (L & W). assert (H : shape (S d) (S d) A) by (split; auto). rewrite L.
  destruct (first_max_spec (fun i => Rabs (at_ A i 0)) (seq 0 (S d)) 0%nat) as (Im & _ & M). set (i := first_max _ 0%nat _) in *. cbv beta zeta in Im, M.
  assert (Hi : (i < S d)%nat) by (destruct Im as [->|Im]; [lia|]; apply in_seq in Im; lia). clear Im.
  pose proof (@swap_rows_shape (S d) (S d) A 0 i H ltac:(lia) Hi) as H'. set (A' := swap [] 0 i A) in *.
  assert (D : det (S d) A' = (if (i =? 0)%nat then 1 else -1) * det (S d) A).
  { destruct (Nat.eqb_spec i 0) as [E|N]; [|unfold A'; rewrite det_swap by (auto; lia); ring]. rewrite Rmult_1_l. unfold det. apply laplace_ext. intros a b _ _. unfold A'. rewrite E. rewrite (@entry_swap_rows (S d) (S d)) by (auto; lia). now rewrite swp_self. }
  assert (C : hd 0 (hd [] A') = at_ A i 0).
  { transitivity (entry A' 0 0); [unfold entry; destruct A' as [|[|] ?]; reflexivity|]. unfold A'. rewrite (@entry_swap_rows (S d) (S d)) by (auto; lia). reflexivity. }
  set (a := hd 0 (hd [] A')) in *. destruct A' as [|[|a' r0] rows] eqn:EA; [destruct H'; discriminate|destruct H' as (_ & W'); specialize (W' [] (or_introl eq_refl)); discriminate|].
  cbn [hd tl] in *. subst a. assert (Hw : length r0 = d /\ length rows = d /\ width (S d) rows).
  { destruct H' as (L' & W'). cbn in L'. split; [specialize (W' _ (or_introl eq_refl)); cbn in W'; lia|]. split; [lia|]. intros r Hr. apply W'. now right. }
  destruct Hw as (L0 & Lr & Wr). rewrite <- EA in *.
  assert (G : forall g : list R -> list R, (forall r, length r = S d -> length (g r) = d) -> shape d d (map g rows)).
  { intros g Hg. split; [now rewrite map_length|]. intros r Hr. apply in_map_iff in Hr. destruct Hr as (c & <- & Hc). apply Hg. auto. }
  destruct (Req_EM_T a' 0) as [Z|Na].
  - specialize (IH (map (@tl R) rows)). destruct (partial_lu d (map (@tl R) rows)) as (s, diag). destruct IH as (Hs & _); [apply G; intros [|] E; cbn in *; lia|].
    split; [destruct (i =? 0)%nat; destruct Hs as [->| ->]; [now left|now right|right; ring|left; ring]|]. rewrite Z. change (prod (0 :: diag)) with (0 * prod diag). rewrite Rmult_0_l, Rmult_0_r. symmetry.
    apply det_zero_column. intros q Hq. specialize (M q ltac:(apply in_seq; lia)). rewrite <- C, Z, Rabs_R0 in M. change (at_ A q 0) with (entry A q 0) in M. destruct (Req_dec (entry A q 0) 0) as [|Nq]; [auto|]. pose proof (Rabs_pos_lt _ Nq). lra.
  - specialize (IH (map (fun r => vsub (tl r) (vscale (hd 0 r / a') r0)) rows)). destruct (partial_lu d (map (fun r => vsub (tl r) (vscale (hd 0 r / a') r0)) rows)) as (s, diag).
    destruct IH as (Hs & E); [apply G; intros [|] Er; cbn in *; [lia|]; rewrite vsub_length; rewrite ?vscale_length; lia|].
    split; [destruct (i =? 0)%nat; destruct Hs as [->| ->]; [now left|now right|right; ring|left; ring]|].
    rewrite EA, det_step, <- E in D by auto. change (prod (a' :: diag)) with (a' * prod diag). destruct (i =? 0)%nat; lra.
Qed.
Lemma prod_sign l : (forall a, In a l -> a <> 0) -> let s := prod (map (fun a => a / Rabs a) l) in prod l = s * exp (total (map (fun a => ln (Rabs a)) l)) /\ (s = 1 \/ s = -1).
Proof.
  induction l as [|a l IH]; intro H; cbv zeta; [cbn; rewrite exp_0; split; [ring|now left]|]. cbv zeta in IH. destruct IH as (E & S1); [intros b Hb; apply H; now right|]. assert (Na : a <> 0) by (apply H; now left).
  assert (Pa : 0 < Rabs a) by (now apply Rabs_pos_lt). cbn [map prod fold_right]. fold (prod l). fold (prod (map (fun a => a / Rabs a) l)). unfold total. cbn [fold_right]. fold (total (map (fun a => ln (Rabs a)) l)). rewrite exp_plus, exp_ln by auto. split.
  - rewrite E. field. lra.
  - assert (Sa : a / Rabs a = 1 \/ a / Rabs a = -1) by (unfold Rabs in *; destruct (Rcase_abs a); [right; field; lra|left; field; lra]). destruct Sa as [->| ->], S1 as [->| ->]; [left|right|right|left]; ring.
Qed.
Lemma logdet_spec d A : shape d d A -> logdet d d A = Ok (if Rltb 0 (det d A) then Fin (ln (det d A)) else NegInf).
Proof.
  intro H. unfold logdet. rewrite Nat.eqb_refl. cbn [negb]. pose proof (partial_lu_det H) as P. destruct (partial_lu d A) as (s, diag). destruct P as (Hs & E).
  destruct (existsb _ diag) eqn:Z.
  - apply existsb_exists in Z. destruct Z as (a & Ha & Za). destruct (Req_EM_T a 0) as [->|]; [|discriminate]. assert (P0 : prod diag = 0).
    { clear -Ha. induction diag as [|b l IH]; [easy|]. cbn. fold (prod l). destruct Ha as [->|Ha]; [ring|]. rewrite IH by auto. ring. }
    rewrite P0, Rmult_0_r in E. rewrite <- E. assert (F : Rltb 0 0 = false) by (destruct (Rltb 0 0) eqn:X; [apply Rltb_true in X; lra|auto]). now rewrite F.
  - assert (N : forall a, In a diag -> a <> 0).
    { intros a Ha E0. assert (X : existsb (fun a => if Req_EM_T a 0 then true else false) diag = true) by (apply existsb_exists; exists a; split; [auto|]; destruct (Req_EM_T a 0); congruence). congruence. }
    destruct (prod_sign diag N) as (EP & Sg). change (fold_right Rmult 1 (map (fun a => a / Rabs a) diag)) with (prod (map (fun a => a / Rabs a) diag)). set (g := prod (map _ diag)) in *. rewrite Rsum_total. set (t := total _) in *.
    pose proof (exp_pos t) as Pt. assert (F : Rltb (s * g) 0 = negb (Rltb 0 (det d A))).
    { rewrite <- E, EP, <- Rmult_assoc. assert (V : s * g = 1 \/ s * g = -1) by (destruct Hs as [->| ->], Sg as [->| ->]; [left|right|right|left]; ring). destruct V as [->| ->].
      - assert (A1 : Rltb 1 0 = false) by (destruct (Rltb 1 0) eqn:X; [apply Rltb_true in X; lra|auto]). assert (A2 : Rltb 0 (1 * exp t) = true) by (apply Rltb_true; lra). now rewrite A1, A2.
      - assert (A1 : Rltb (-1) 0 = true) by (apply Rltb_true; lra). assert (A2 : Rltb 0 (-1 * exp t) = false) by (destruct (Rltb 0 (-1 * exp t)) eqn:X; [apply Rltb_true in X; lra|auto]). now rewrite A1, A2. }
    rewrite F. destruct (Rltb 0 (det d A)) eqn:X; cbn [negb]; [|reflexivity]. apply Rltb_true in X. do 2 f_equal. rewrite <- E, EP, <- Rmult_assoc in *.
    assert (V : s * g = 1) by (destruct Hs as [->| ->], Sg as [-> | ->]; nra). rewrite V, Rmult_1_l. symmetry. apply ln_exp.
Qed.
