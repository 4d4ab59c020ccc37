(** Decision trees on converted features. *)
From Coq Require Import Reals Lra QArith.
From Verif Require Import Base Sorting Common_Model Argsort_Model Argsort_Proofs Split_Model Tree_Model Impurity_Model KDReal_Proofs KDHom_Proofs Units_Spec.
Set Implicit Arguments.

Lemma nth_error_combine_seq {A} (l : list A) : forall s j, nth_error (combine (seq s (length l)) l) j = option_map (fun a => (s + j, a)%nat) (nth_error l j).
Proof.
  induction l as [|a l IH]; intros s j; [destruct j; reflexivity|]. destruct j; cbn [length seq combine nth_error option_map]; [now rewrite Nat.add_0_r|].
  rewrite IH. destruct (nth_error l j); cbn; [|reflexivity]. do 2 f_equal. lia.
Qed.
Lemma vget_convert {A B} (g : nat -> A -> B) r j : vget (convert g r) j = omap (g j) (vget r j).
Proof. unfold vget, convert. rewrite nth_error_map, nth_error_combine_seq. destruct (nth_error r j); reflexivity. Qed.
Lemma length_convert {A B} (g : nat -> A -> B) r : length (convert g r) = length r.
Proof. unfold convert. now rewrite map_length, combine_length, seq_length, Nat.min_id. Qed.

Lemma ins_hom {A B} (f : A -> B) ltA ltB : (forall a b, ltB (f a) (f b) = ltA a b) -> forall x l, ins ltB (f x) (map f l) = map f (ins ltA x l).
Proof. intros H x l. induction l as [|y l IH]; cbn [map ins]; [reflexivity|]. rewrite H. destruct (ltA y x); cbn [map]; [now rewrite IH|reflexivity]. Qed.
Lemma isort_hom {A B} (f : A -> B) ltA ltB : (forall a b, ltB (f a) (f b) = ltA a b) -> forall l, isort ltB (map f l) = map f (isort ltA l).
Proof. intros H l. induction l as [|y l IH]; cbn [map isort]; [reflexivity|]. rewrite IH. now apply ins_hom. Qed.
Lemma foldM_hom {A A' B C} (f : A -> A') (h : B -> C) (k : A -> B -> outcome A) k' l : (forall a b, In b l -> k' (f a) (h b) = omap f (k a b)) ->
  forall a, foldM k' (map h l) (f a) = omap f (foldM k l a).
Proof.
  induction l as [|b l IH]; intros H a; cbn [map foldM]; [reflexivity|]. rewrite H by now left. apply bind_hom. intros a'. apply IH. intros. apply H. now right.
Qed.

Section Hom.
  Variable T : Type.
  Variable ltb : T -> T -> bool.
  Variable mid : T -> T -> T.
  Variable phi : nat -> T -> T.
  Hypothesis Hlt : forall f a b, ltb (phi f a) (phi f b) = ltb a b.
  Hypothesis Hmid : forall f a b, mid (phi f a) (phi f b) = phi f (mid a b).
  Notation conv := (map (convert phi)).

  Lemma mids_hom f l : mids mid (map (phi f) l) = map (phi f) (mids mid l).
  Proof. induction l as [|a [|b l] IH]; try reflexivity. cbn [map mids] in *. now rewrite Hmid, IH. Qed.
  Lemma uniq_hom f l : uniq ltb (map (phi f) l) = map (phi f) (uniq ltb l).
  Proof.
    destruct l as [|a l]; [reflexivity|]. cbn [map uniq]. revert a. induction l as [|b l IH]; intros a; [reflexivity|]. cbn [map uniq_from].
    unfold eqb. rewrite !Hlt. destruct (negb (ltb a b) && negb (ltb b a)); [apply IH|]. cbn [map]. now rewrite IH.
  Qed.
  Lemma choose_hom f x : choose_feature_threshold ltb mid (map (phi f) x) = omap (map (phi f)) (choose_feature_threshold ltb mid x).
  Proof.
    unfold choose_feature_threshold. rewrite (argsort_hom _ _ (phi f) ltb ltb (Hlt f)). destruct (argsort_col ltb x); try reflexivity. cbn [bind].
    rewrite (mapM_hom' (phi f) (vget x)) by (intros; apply vget_hom). apply bind_hom. intros s. cbn [omap]. f_equal.
    rewrite mids_hom, (isort_hom (phi f) ltb ltb (Hlt f)). apply uniq_hom.
  Qed.
  Lemma column_hom X f : column_of (conv X) f = omap (map (phi f)) (column_of X f).
  Proof. unfold column_of. apply mapM_hom. intros r _. apply vget_convert. Qed.
  Lemma divide_hom X f v : divide_on_feature (leb ltb) (conv X) f (phi f v) = divide_on_feature (leb ltb) X f v.
  Proof.
    unfold divide_on_feature. generalize (@nil nat) at 1 3. generalize (@nil nat). generalize 0%nat. induction X as [|r X IH]; intros i l1 l2; cbn [map divide_loop]; [reflexivity|].
    rewrite vget_convert. destruct (vget r f) as [w| | |]; cbn [bind omap]; try reflexivity. replace (leb ltb (phi f w) (phi f v)) with (leb ltb w v) by (unfold leb; now rewrite Hlt).
    destruct (leb ltb w v); apply IH.
  Qed.

  Variable I : Type.
  Variable gtb : I -> I -> bool.
  Variable imin : I.
  (** The labels may be renamed as well. *)
  Variable psi : T -> T.
  Variables gain gain' : list T -> list T -> list T -> outcome I.
  Hypothesis Hgain : forall y l r, gain' (map psi y) (map psi l) (map psi r) = gain y l r.
  Variables V V' : Type.
  Variable hv : V -> V'.
  Variable node_value : list T -> outcome (V * bool).
  Variable node_value' : list T -> outcome (V' * bool).
  Definition hstop (p : V * bool) : V' * bool := (hv (fst p), snd p).
  Hypothesis Hval : forall y, node_value' (map psi y) = omap hstop (node_value y).

  Definition hcand (c : nat * T) : nat * T := (fst c, phi (fst c) (snd c)).
  Definition hbest (b : I * option (nat * T)) : I * option (nat * T) := (fst b, option_map hcand (snd b)).
  Lemma try_split_hom X y b f t : try_split ltb gtb gain' (conv X) (map psi y) (hbest b) (f, phi f t) = omap hbest (try_split ltb gtb gain X y b (f, t)).
  Proof.
    unfold try_split. rewrite divide_hom. destruct (divide_on_feature (leb ltb) X f t) as [(li & ri)| | |]; cbn [bind]; try reflexivity.
    rewrite (mapM_hom' psi (vget y)) by (intros; apply vget_hom). apply bind_hom. intros ly.
    rewrite (mapM_hom' psi (vget y)) by (intros; apply vget_hom). apply bind_hom. intros ry.
    rewrite Hgain. destruct (gain y ly ry) as [g| | |]; cbn [bind]; try reflexivity. cbn [hbest fst]. destruct (gtb g (fst b)); reflexivity.
  Qed.
  Lemma best_split_hom nf X y : best_split ltb mid gtb imin gain' nf (conv X) (map psi y) = omap hbest (best_split ltb mid gtb imin gain nf X y).
  Proof.
    unfold best_split. change (imin, @None (nat * T)) with (hbest (imin, None)) at 1. rewrite <- (map_id (seq 0 nf)) at 1.
    apply foldM_hom. intros b f _. rewrite column_hom. destruct (column_of X f) as [x| | |]; cbn [bind omap]; try reflexivity.
    rewrite choose_hom. destruct (choose_feature_threshold ltb mid x) as [ts| | |]; cbn [bind omap]; try reflexivity.
    apply foldM_hom. intros. apply try_split_hom.
  Qed.
  Definition hinfo (i : info T I V) : info T I V' :=
    Info (n_samples i) (hv (n_value i)) (option_map (fun s => (fst (fst s), phi (fst (fst s)) (snd (fst s)), snd s)) (n_split i)).
  Fixpoint htree (t : dtree T I V) : dtree T I V' :=
    match t with Null => Null | Node i l r => Node (hinfo i) (htree l) (htree r) end.
  Lemma rows_where_hom {A B} (g : A -> B) sel l : rows_where sel (map g l) = omap (map g) (rows_where sel l).
  Proof. unfold rows_where. apply mapM_hom'. intros. apply vget_hom. Qed.
  Lemma build_tree_hom nf P fuel : forall X y d,
    Tree_Model.build_tree ltb mid gtb imin gain' node_value' nf P fuel (conv X) (map psi y) d =
    omap htree (Tree_Model.build_tree ltb mid gtb imin gain node_value nf P fuel X y d).
  Proof.
    induction fuel as [|fuel IH]; intros X y d; [reflexivity|]. cbn [Tree_Model.build_tree]. rewrite map_length, Hval.
    destruct (node_value y) as [(v & stop)| | |]; cbn [bind omap hstop fst snd]; try reflexivity.
    destruct stop; [reflexivity|]. destruct (length X <? min_samples_split P)%nat; [reflexivity|]. destruct (max_depth P <? d)%nat; [reflexivity|].
    rewrite best_split_hom. destruct (best_split ltb mid gtb imin gain nf X y) as [(bi & best)| | |]; cbn [bind omap]; try reflexivity.
    unfold hbest. cbn [fst snd]. destruct best as [(bf & bv)|]; cbn [option_map]; [|reflexivity]. unfold hcand. cbn [fst snd].
    destruct (negb (gtb bi (min_decrease P))); [reflexivity|]. rewrite column_hom.
    destruct (column_of X bf) as [xs| | |]; cbn [bind omap]; try reflexivity.
    rewrite !map_map.
    rewrite (map_ext (fun x => leb ltb (phi bf x) (phi bf bv)) (fun x => leb ltb x bv)) by (intros; unfold leb; now rewrite Hlt).
    rewrite (map_ext (fun x => ltb (phi bf bv) (phi bf x)) (fun x => ltb bv x)) by (intros; apply Hlt).
    rewrite !rows_where_hom. apply bind_hom. intros lx. apply bind_hom. intros ly. apply bind_hom. intros rx. apply bind_hom. intros ry.
    rewrite !map_length, !IH. cbv zeta.
    assert (E : forall (b : bool) o, (if b then omap htree o else Ok Null) = omap htree (if b then o else Ok Null)) by (intros []; reflexivity).
    rewrite E. apply bind_hom. intros l. rewrite E. apply bind_hom. intros r. reflexivity.
  Qed.
  Lemma grow_hom nf P X y : grow ltb mid gtb imin gain' node_value' nf P (conv X) (map psi y) = omap htree (grow ltb mid gtb imin gain node_value nf P X y).
  Proof. apply build_tree_hom. Qed.
  Lemma walk_hom t x : walk ltb (htree t) (convert phi x) = omap hinfo (walk ltb t x).
  Proof.
    induction t as [|i l IHl r IHr]; [reflexivity|]. cbn [htree walk]. destruct l as [|i' l1 l2]; [reflexivity|]. cbn [htree] in *. cbn [hinfo n_split].
    destruct (n_split i) as [((f & v) & g)|]; cbn [option_map fst snd]; [|reflexivity]. rewrite vget_convert. apply bind_hom. intros xf.
    unfold leb. rewrite Hlt. destruct (negb (ltb v xf)); assumption.
  Qed.
End Hom.
