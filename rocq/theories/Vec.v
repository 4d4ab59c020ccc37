(** Real vectors as lists, and the laws used by the numerical models. *)
From Coq Require Import Reals Lra List Lia.
From Verif Require Import Impurity_Spec Impurity_Proofs.
Import ListNotations.
Local Open Scope R_scope.
Set Implicit Arguments.

Fixpoint map2 {A B C} (f : A -> B -> C) (u : list A) (v : list B) : list C :=
  match u, v with a :: u', b :: v' => f a b :: map2 f u' v' | _, _ => [] end.
Definition vadd := map2 Rplus.
Definition vsub := map2 Rminus.
Definition vscale (c : R) := map (Rmult c).
Definition zeros (d : nat) : list R := repeat 0 d.
Definition dot (u v : list R) : R := total (map2 Rmult u v).
Definition sqn (v : list R) : R := dot v v.
Definition vsum (d : nat) (xs : list (list R)) : list R := fold_right vadd (zeros d) xs.

Definition width (d : nat) (xs : list (list R)) : Prop := forall x, In x xs -> length x = d.
Lemma width_cons d x xs : width d (x :: xs) <-> length x = d /\ width d xs.
Proof.
  split; [intros H; split; [apply H; now left|intros y Hy; apply H; now right]|].
  intros (H1 & H2) y [<-|Hy]; auto.
Qed.
Lemma width_nil d : width d [].
Proof. intros x []. Qed.
Lemma width_app d a b : width d (a ++ b) <-> width d a /\ width d b.
Proof.
  unfold width. split; [intros H; split; intros x Hx; apply H, in_app_iff; tauto|].
  intros (H1 & H2) x Hx. apply in_app_iff in Hx. destruct Hx; auto.
Qed.

Lemma map2_length {A B C} (f : A -> B -> C) u v : length u = length v -> length (map2 f u v) = length u.
Proof. revert v. induction u as [|a u IH]; intros [|b v] H; simpl in *; try lia. rewrite IH; lia. Qed.
Lemma map2_map_l {A A' B C} (f : A -> B -> C) (g : A' -> A) u v : map2 f (map g u) v = map2 (fun a b => f (g a) b) u v.
Proof. revert v. induction u as [|a u IH]; intros [|b v]; simpl; auto. now rewrite IH. Qed.
Lemma map2_map_r {A B B' C} (f : A -> B -> C) (g : B' -> B) u v : map2 f u (map g v) = map2 (fun a b => f a (g b)) u v.
Proof. revert v. induction u as [|a u IH]; intros [|b v]; simpl; auto. now rewrite IH. Qed.
Lemma map_map2 {A B C D} (g : C -> D) (f : A -> B -> C) u v : map g (map2 f u v) = map2 (fun a b => g (f a b)) u v.
Proof. revert v. induction u as [|a u IH]; intros [|b v]; simpl; auto. now rewrite IH. Qed.
Lemma nth_error_map2 {A B C} (f : A -> B -> C) u v j :
  nth_error (map2 f u v) j = match nth_error u j, nth_error v j with Some a, Some b => Some (f a b) | _, _ => None end.
Proof.
  revert v j. induction u as [|a u IH]; intros [|b v] [|j]; simpl; auto.
  - now destruct (nth_error u j).
Qed.
Lemma map2_ext {A B C} (f g : A -> B -> C) u v : (forall a b, f a b = g a b) -> map2 f u v = map2 g u v.
Proof. intros H. revert v. induction u as [|a u IH]; intros [|b v]; simpl; auto. now rewrite H, IH. Qed.

Lemma vadd_length u v : length u = length v -> length (vadd u v) = length u.
Proof. apply map2_length. Qed.
Lemma vsub_length u v : length u = length v -> length (vsub u v) = length u.
Proof. apply map2_length. Qed.
Lemma vscale_length c v : length (vscale c v) = length v.
Proof. apply map_length. Qed.
Lemma zeros_length d : length (zeros d) = d.
Proof. apply repeat_length. Qed.
Lemma vsum_length d xs : width d xs -> length (vsum d xs) = d.
Proof.
  induction xs as [|x xs IH]; intros H; [apply zeros_length|]. apply width_cons in H. destruct H as (H1 & H2). simpl.
  rewrite vadd_length; [assumption|]. rewrite IH by assumption. assumption.
Qed.

Lemma dot_nil_l v : dot [] v = 0.
Proof. reflexivity. Qed.
Lemma dot_nil_r v : dot v [] = 0.
Proof. destruct v; reflexivity. Qed.
Lemma dot_cons a u b v : dot (a :: u) (b :: v) = a * b + dot u v.
Proof. reflexivity. Qed.
Lemma dot_comm u v : dot u v = dot v u.
Proof. revert v. induction u as [|a u IH]; intros [|b v]; try reflexivity. rewrite !dot_cons, IH. lra. Qed.
Lemma dot_zeros_l d v : dot (zeros d) v = 0.
Proof. revert v. induction d as [|d IH]; intros [|b v]; try reflexivity. unfold zeros in *. simpl repeat. rewrite dot_cons, IH. lra. Qed.
Lemma dot_vadd_l u v w : length u = length v -> dot (vadd u v) w = dot u w + dot v w.
Proof.
  revert v w. induction u as [|a u IH]; intros [|b v] w H; simpl in H; try lia; [rewrite !dot_nil_l; lra|].
  destruct w as [|c w]; [rewrite !dot_nil_r; lra|]. unfold vadd in *. simpl map2. rewrite !dot_cons, IH by lia. lra.
Qed.
Lemma dot_vadd_r u v w : length u = length v -> dot w (vadd u v) = dot w u + dot w v.
Proof. intros H. rewrite !(dot_comm w). now apply dot_vadd_l. Qed.
Lemma dot_vsub_l u v w : length u = length v -> dot (vsub u v) w = dot u w - dot v w.
Proof.
  revert v w. induction u as [|a u IH]; intros [|b v] w H; simpl in H; try lia; [rewrite !dot_nil_l; lra|].
  destruct w as [|c w]; [rewrite !dot_nil_r; lra|]. unfold vsub in *. simpl map2. rewrite !dot_cons, IH by lia. lra.
Qed.
Lemma dot_vsub_r u v w : length u = length v -> dot w (vsub u v) = dot w u - dot w v.
Proof. intros H. rewrite !(dot_comm w). now apply dot_vsub_l. Qed.
Lemma dot_vscale_l c u v : dot (vscale c u) v = c * dot u v.
Proof.
  revert v. induction u as [|a u IH]; intros [|b v]; rewrite ?dot_nil_l, ?dot_nil_r; try lra.
  - change (vscale c (a :: u)) with (c * a :: vscale c u). rewrite !dot_cons, IH. lra.
Qed.
Lemma dot_vscale_r c u v : dot u (vscale c v) = c * dot u v.
Proof. rewrite dot_comm, dot_vscale_l, dot_comm. reflexivity. Qed.
Lemma dot_vsum d xs c : width d xs -> dot (vsum d xs) c = total (map (fun x => dot x c) xs).
Proof.
  induction xs as [|x xs IH]; intros H; [apply dot_zeros_l|]. apply width_cons in H. destruct H as (H1 & H2). simpl.
  rewrite dot_vadd_l by (rewrite vsum_length; auto). now rewrite IH.
Qed.

Lemma sqn_nonneg v : 0 <= sqn v.
Proof. unfold sqn. induction v as [|a v IH]; [rewrite dot_nil_l; lra|]. rewrite dot_cons. pose proof (Rle_0_sqr a). unfold Rsqr in *. lra. Qed.
Lemma sqn_zero v : sqn v = 0 <-> forall a, In a v -> a = 0.
Proof.
  unfold sqn. induction v as [|a v IH]; [rewrite dot_nil_l; split; [intros _ a []|reflexivity]|].
  rewrite dot_cons. pose proof (Rle_0_sqr a) as Ha. pose proof (sqn_nonneg v) as Hv. unfold Rsqr, sqn in *. split.
  - intros H b [<-|Hb]; [|apply IH; [lra|assumption]]. assert (a * a = 0) by lra. now apply Rsqr_0_uniq.
  - intros H. rewrite (proj2 IH) by (intros; apply H; now right). rewrite (H a) by now left. lra.
Qed.
Lemma sqn_vsub u v : length u = length v -> sqn (vsub u v) = sqn u - 2 * dot u v + sqn v.
Proof.
  intros H. unfold sqn. rewrite dot_vsub_l by assumption. rewrite !dot_vsub_r by assumption. rewrite (dot_comm v u). lra.
Qed.
Lemma sqn_vadd u v : length u = length v -> sqn (vadd u v) = sqn u + 2 * dot u v + sqn v.
Proof.
  intros H. unfold sqn. rewrite dot_vadd_l by assumption. rewrite !dot_vadd_r by assumption. rewrite (dot_comm v u). lra.
Qed.
Lemma sqn_vscale c v : sqn (vscale c v) = c * c * sqn v.
Proof. unfold sqn. rewrite dot_vscale_l, dot_vscale_r. lra. Qed.
Lemma sqn_sum v : sqn v = total (map (fun a => a * a) v).
Proof. unfold sqn. induction v as [|a v IH]; [reflexivity|]. rewrite dot_cons, IH. reflexivity. Qed.
Lemma vsub_self_zero u v : length u = length v -> (sqn (vsub u v) = 0 <-> u = v).
Proof.
  revert v. induction u as [|a u IH]; intros [|b v] H; simpl in H; try lia; [split; auto; intros; apply dot_nil_l|].
  unfold vsub in *. simpl map2. unfold sqn. rewrite dot_cons. fold (sqn (map2 Rminus u v)).
  pose proof (sqn_nonneg (map2 Rminus u v)). pose proof (Rle_0_sqr (a - b)). unfold Rsqr in *. split.
  - intros E. assert (E1 : (a - b) * (a - b) = 0) by lra. apply Rsqr_0_uniq in E1. assert (E2 : sqn (map2 Rminus u v) = 0) by lra.
    apply IH in E2; [|lia]. f_equal; [lra|assumption].
  - intros [= -> ->]. rewrite (proj2 (IH v ltac:(lia)) eq_refl). lra.
Qed.

(** The mean minimises the sum of squared distances. *)
Definition vmean (d : nat) (xs : list (list R)) : list R := vscale (/ INR (length xs)) (vsum d xs).
Lemma vmean_length d xs : width d xs -> length (vmean d xs) = d.
Proof. intros H. unfold vmean. now rewrite vscale_length, vsum_length. Qed.
Lemma sum_sqn_center d xs c : width d xs -> length c = d -> xs <> [] ->
  total (map (fun x => sqn (vsub x c)) xs) =
  total (map (fun x => sqn (vsub x (vmean d xs))) xs) + INR (length xs) * sqn (vsub (vmean d xs) c).
Proof.
  intros HW Hc Hne. assert (Hn : INR (length xs) <> 0) by (apply not_0_INR; destruct xs; [congruence|discriminate]).
  assert (G : forall m, length m = d -> total (map (fun x => sqn (vsub x m)) xs) =
    total (map sqn xs) - 2 * INR (length xs) * dot (vmean d xs) m + INR (length xs) * sqn m).
  { intros m Hm. rewrite (total_ext _ (fun x => (sqn x + (-2) * dot x m) + sqn m)).
    2: { intros x Hx. rewrite sqn_vsub; [lra|]. rewrite (HW x Hx). auto. }
    rewrite !total_plus, total_scal, total_const. unfold vmean. rewrite dot_vscale_l, dot_vsum by assumption. field. assumption. }
  rewrite (G c Hc), (G _ (vmean_length HW)). rewrite sqn_vsub by (rewrite vmean_length; auto).
  change (dot (vmean d xs) (vmean d xs)) with (sqn (vmean d xs)). ring.
Qed.
