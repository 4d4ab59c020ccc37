(** The determinant is linear in every row, changes its sign when two rows are exchanged, and is the product of the
    pivots of Gaussian elimination. *)
From Coq Require Import Reals Lra.
From Verif Require Import Base Impurity_Spec Impurity_Proofs Vec Stats_Spec LossSoftmax_Proofs Decomp_Proofs Det_Spec.
Local Open Scope R_scope.
Set Implicit Arguments.

(** Exchanging two neighbouring rows. *)
Definition tau (k i : nat) : nat := if (i =? k)%nat then S k else if (i =? S k)%nat then k else i.
Ltac idx := unfold tau, skip in *; repeat match goal with
  | |- context [(?a <? ?b)%nat] => lazymatch a with context [if _ then _ else _] => fail | _ => destruct (Nat.ltb_spec a b) end
  | |- context [(?a =? ?b)%nat] => lazymatch a with context [if _ then _ else _] => fail | _ => destruct (Nat.eqb_spec a b) end
  end; try lia.
Lemma skip_lt i a d : (a < d)%nat -> (skip i a < S d)%nat.
Proof. unfold skip. destruct (a <? i)%nat; lia. Qed.
Lemma laplace_ext d f g : (forall i j, (i < d)%nat -> (j < d)%nat -> f i j = g i j) -> laplace d f = laplace d g.
Proof.
  revert f g. induction d as [|d IH]; intros f g H; [reflexivity|]. cbn [laplace]. apply total_seq_ext. intros i Hi. rewrite H by lia. f_equal. apply IH. intros a b Ha Hb. apply H; [now apply skip_lt|lia].
Qed.
Arguments laplace_ext {d f g} _.

(** Row [k] replaced by [r]. *)
Definition upd (f : nat -> nat -> R) (k : nat) (r : nat -> R) : nat -> nat -> R := fun i j => if (i =? k)%nat then r j else f i j.
Definition pred_row (i k : nat) : nat := if (k <? i)%nat then k else (k - 1)%nat.
Lemma upd_minor f k r i a b : i <> k -> upd f k r (skip i a) (S b) = upd (fun a b => f (skip i a) (S b)) (pred_row i k) (fun b => r (S b)) a b.
Proof.
  intro N. unfold upd. replace (skip i a =? k)%nat with (a =? pred_row i k)%nat; [reflexivity|]. unfold skip, pred_row.
  idx; reflexivity.
Qed.
Lemma upd_minor_same f k r a b : upd f k r (skip k a) (S b) = f (skip k a) (S b).
Proof. unfold upd. idx; reflexivity. Qed.
Lemma laplace_linear d : forall f k r s c, (k < d)%nat -> laplace d (upd f k (fun j => r j + c * s j)) = laplace d (upd f k r) + c * laplace d (upd f k s).
Proof.
  induction d as [|d IH]; intros f k r s c Hk; [lia|]. cbn [laplace]. rewrite <- total_scal, <- total_plus. apply total_seq_ext. intros i Hi. destruct (Nat.eq_dec i k) as [->|N].
  - rewrite !(laplace_ext (d := d) (f := fun a b => upd f k _ (skip k a) (S b)) (g := fun a b => f (skip k a) (S b))) by (intros; apply upd_minor_same). unfold upd. rewrite Nat.eqb_refl. ring.
  - assert (M : forall q, laplace d (fun a b => upd f k q (skip i a) (S b)) = laplace d (upd (fun a b => f (skip i a) (S b)) (pred_row i k) (fun b => q (S b)))) by (intro q; apply laplace_ext; intros; now apply upd_minor).
    rewrite !M. assert (Hp : (pred_row i k < d)%nat) by (unfold pred_row; destruct (Nat.ltb_spec k i); lia).
    rewrite (IH _ _ (fun b => r (S b)) (fun b => s (S b)) c Hp). assert (U : forall q, upd f k q i 0%nat = f i 0%nat) by (intro q; unfold upd; apply Nat.eqb_neq in N; now rewrite N). rewrite !U. ring.
Qed.

Lemma total_pair k d (g : nat -> R) : (S k < d)%nat -> total (map g (seq 0 d)) = total (map g (seq 0 k)) + (g k + g (S k)) + total (map g (seq (k + 2) (d - k - 2))).
Proof.
  intro H. replace d with (k + (2 + (d - k - 2)))%nat at 1 by lia. rewrite !seq_app, !map_app, !total_app. cbn [seq map]. rewrite !Nat.add_0_l. change (total [g k; g (S k)]) with (g k + (g (S k) + 0)). ring.
Qed.
Lemma laplace_adjacent d : forall f k, (S k < d)%nat -> laplace d (fun i j => f (tau k i) j) = - laplace d f.
Proof.
  induction d as [|d IH]; intros f k Hk; [lia|]. cbn [laplace]. rewrite (@total_pair k (S d) (fun i => (-1) ^ i * f (tau k i) 0%nat * laplace d (fun a b => f (tau k (skip i a)) (S b)))) by lia.
  assert (O : forall a n, (forall i, (a <= i < a + n)%nat -> (i < S d)%nat /\ i <> k /\ i <> S k) ->
    total (map (fun i => (-1) ^ i * f (tau k i) 0%nat * laplace d (fun a b => f (tau k (skip i a)) (S b))) (seq a n)) =
    - total (map (fun i => (-1) ^ i * f i 0%nat * laplace d (fun a b => f (skip i a) (S b))) (seq a n))).
  { intros a n Hi. match goal with |- _ = - ?x => replace (- x) with (-1 * x) by ring end. rewrite <- total_scal. apply total_ext. intros i Hin. apply in_seq in Hin. destruct (Hi i Hin) as (Hd & N1 & N2). replace (tau k i) with i by idx.
    set (k' := if (i <? k)%nat then (k - 1)%nat else k).
    rewrite (laplace_ext (f := fun a b => f (tau k (skip i a)) (S b)) (g := fun a b => (fun a b => f (skip i a) (S b)) (tau k' a) b)).
    - rewrite (IH (fun a b => f (skip i a) (S b)) k'); [ring|]. unfold k'. destruct (Nat.ltb_spec i k); lia.
    - intros a0 b _ _. replace (tau k (skip i a0)) with (skip i (tau k' a0)); [reflexivity|]. unfold k'. idx. }
  rewrite (O 0%nat k) by (intros; lia). rewrite (O (k + 2)%nat) by (intros; lia). replace (tau k k) with (S k) by idx. replace (tau k (S k)) with k by idx.
  rewrite (laplace_ext (f := fun a b => f (tau k (skip k a)) (S b)) (g := fun a b => f (skip (S k) a) (S b))) by (intros a b _ _; f_equal; idx).
  rewrite (laplace_ext (f := fun a b => f (tau k (skip (S k) a)) (S b)) (g := fun a b => f (skip k a) (S b))) by (intros a b _ _; f_equal; idx).
  rewrite (@total_pair k (S d) (fun i => (-1) ^ i * f i 0%nat * laplace d (fun a b => f (skip i a) (S b)))) by lia. cbn [pow]. ring.
Qed.
(** Exchanging two rows. *)
Definition swp (k l i : nat) : nat := if (i =? k)%nat then l else if (i =? l)%nat then k else i.
Lemma laplace_swap d f k n : (S (k + n) < d)%nat -> laplace d (fun i j => f (swp k (S (k + n)) i) j) = - laplace d f.
Proof.
  revert f. induction n as [|n IH]; intros f H.
  - rewrite <- (@laplace_adjacent d f k) by lia. apply laplace_ext. intros i j _ _. f_equal. unfold swp. idx.
  - set (m := (k + n)%nat) in *.
    rewrite (laplace_ext (f := fun i j => f (swp k (S (k + S n)) i) j) (g := fun i j => (fun i j => (fun i j => f (tau (S m) i) j) (swp k (S m) i) j) (tau (S m) i) j)).
    + rewrite (@laplace_adjacent d (fun i j => f (tau (S m) (swp k (S m) i)) j) (S m)) by lia. rewrite (IH (fun i j => f (tau (S m) i) j)) by lia. rewrite (@laplace_adjacent d f (S m)) by lia. ring.
    + intros i j _ _. f_equal. unfold swp, m, tau. destruct (Nat.eqb_spec i (S (k + n))) as [->|N1]; [idx|]. destruct (Nat.eqb_spec i (S (S (k + n)))) as [->|N2]; idx.
Qed.
Lemma laplace_equal_rows d f k l : (k < l < d)%nat -> (forall j, (j < d)%nat -> f k j = f l j) -> laplace d f = 0.
Proof.
  intros H E. pose proof (@laplace_swap d f k (l - k - 1) ltac:(lia)) as Sw. replace (S (k + (l - k - 1))) with l in Sw by lia.
  assert (X : laplace d (fun i j => f (swp k l i) j) = laplace d f).
  { apply laplace_ext. intros i j _ Hj. unfold swp. destruct (Nat.eqb_spec i k) as [->|]; [now rewrite E|]. destruct (Nat.eqb_spec i l) as [->|]; [now rewrite E|reflexivity]. }
  lra.
Qed.
(** A multiple of another row can be added to a row. *)
Lemma laplace_add_row d f k l c : (k < d)%nat -> (l < d)%nat -> k <> l -> laplace d (upd f k (fun j => f k j + c * f l j)) = laplace d f.
Proof.
  intros Hk Hl N. rewrite laplace_linear by auto.
  rewrite (laplace_ext (f := upd f k (f k)) (g := f)) by (intros i j _ _; unfold upd; destruct (Nat.eqb_spec i k) as [->|]; reflexivity).
  assert (Z : laplace d (upd f k (f l)) = 0).
  { assert (N' : (l =? k)%nat = false) by (apply Nat.eqb_neq; auto). destruct (Nat.lt_ge_cases k l); [apply (@laplace_equal_rows d _ k l)|apply (@laplace_equal_rows d _ l k)]; try lia; intros j _; unfold upd; rewrite Nat.eqb_refl, N'; reflexivity. }
  rewrite Z. ring.
Qed.
(** Multiples of the first row can be added to all the others. *)
Lemma laplace_eliminate d f (c : nat -> R) : laplace (S d) (fun i j => if (i =? 0)%nat then f 0%nat j else f i j + c i * f 0%nat j) = laplace (S d) f.
Proof.
  assert (H : forall n, (n <= d)%nat -> laplace (S d) (fun i j => if ((i =? 0) || (n <? i))%nat then f i j else f i j + c i * f 0%nat j) = laplace (S d) f).
  { induction n as [|n IH]; intro Hn.
    - apply laplace_ext. intros i j _ _. destruct (Nat.eqb_spec i 0), (Nat.ltb_spec 0 i); cbn; auto; lia.
    - rewrite <- IH by lia. set (g := fun i j => if ((i =? 0) || (n <? i))%nat then f i j else f i j + c i * f 0%nat j).
      rewrite <- (@laplace_add_row (S d) g (S n) 0 (c (S n))) by lia. apply laplace_ext. intros i j _ _. unfold upd, g.
      destruct (Nat.eqb_spec i 0) as [->|N0]; cbn [orb Nat.eqb]; [reflexivity|]. destruct (Nat.eqb_spec i (S n)) as [->|N1].
      + replace (S n <? S n)%nat with false by (symmetry; apply Nat.ltb_irrefl). replace (n <? S n)%nat with true by (symmetry; apply Nat.ltb_lt; lia). cbn [Nat.eqb orb]. reflexivity.
      + replace (S n <? i)%nat with (n <? i)%nat; [reflexivity|]. destruct (Nat.ltb_spec n i), (Nat.ltb_spec (S n) i); lia || reflexivity. }
  rewrite <- (H d) by lia. apply laplace_ext. intros i j Hi _. destruct (Nat.eqb_spec i 0) as [->|]; cbn [orb]; [reflexivity|]. destruct (Nat.ltb_spec d i); [lia|reflexivity].
Qed.
(** A first column of zeros below the first entry. *)
Lemma laplace_corner d f : (forall i, (0 < i < S d)%nat -> f i 0%nat = 0) -> laplace (S d) f = f 0%nat 0%nat * laplace d (fun a b => f (S a) (S b)).
Proof.
  intro H. cbn [laplace]. cbn [seq map]. unfold total at 1. cbn [fold_right]. fold (total (map (fun i => (-1) ^ i * f i 0%nat * laplace d (fun a b => f (skip i a) (S b))) (seq 1 d))).
  rewrite (total_ext _ (fun _ => 0)); [rewrite total_const; cbn [pow]; rewrite (laplace_ext (f := fun a b => f (skip 0 a) (S b)) (g := fun a b => f (S a) (S b))) by reflexivity; ring|].
  intros i Hi. apply in_seq in Hi. rewrite H by lia. ring.
Qed.
(** One step of Gaussian elimination. *)
Lemma laplace_step d f : f 0%nat 0%nat <> 0 -> laplace (S d) f = f 0%nat 0%nat * laplace d (fun a b => f (S a) (S b) - f (S a) 0%nat / f 0%nat 0%nat * f 0%nat (S b)).
Proof.
  intro N. rewrite <- (laplace_eliminate d f (fun i => - (f i 0%nat / f 0%nat 0%nat))). rewrite laplace_corner.
  - cbn [Nat.eqb]. f_equal. apply laplace_ext. intros a b _ _. ring.
  - intros i Hi. destruct (Nat.eqb_spec i 0); [lia|]. field. auto.
Qed.
Lemma laplace_zero_column d f : (forall i, (i < S d)%nat -> f i 0%nat = 0) -> laplace (S d) f = 0.
Proof. intro H. rewrite laplace_corner by (intros; apply H; lia). rewrite H by lia. ring. Qed.

(** * For matrices given by their rows *)
Lemma entry_S r A i j : entry (r :: A) (S i) j = entry A i j.
Proof. reflexivity. Qed.
Lemma det_step d a r0 rows : a <> 0 -> length r0 = d -> length rows = d -> width (S d) rows ->
  det (S d) ((a :: r0) :: rows) = a * det d (map (fun r => vsub (tl r) (vscale (hd 0 r / a) r0)) rows).
Proof.
  intros Na L0 L W. unfold det. rewrite laplace_step by auto. change (entry ((a :: r0) :: rows) 0 0) with a. f_equal. apply laplace_ext. intros i j Hi Hj.
  rewrite !entry_S. change (entry ((a :: r0) :: rows) 0 (S j)) with (nth j r0 0). unfold entry. assert (Lr : length (nth i rows []) = S d) by (apply W, nth_In; lia).
  set (g := fun r : list R => vsub (tl r) (vscale (hd 0 r / a) r0)). assert (G : nth i (map g rows) [] = g (nth i rows [])).
  { rewrite (nth_indep _ [] (g [])) by (rewrite map_length; lia). apply map_nth. }
  rewrite G. unfold g.
  destruct (nth i rows []) as [|b r]; [discriminate|]. cbn [tl hd]. cbn in Lr. rewrite nth_vsub by (rewrite vscale_length; lia). rewrite nth_vscale. cbn [nth]. reflexivity.
Qed.
Lemma det_zero_column d A : (forall i, (i < S d)%nat -> entry A i 0 = 0) -> det (S d) A = 0.
Proof. apply laplace_zero_column. Qed.
