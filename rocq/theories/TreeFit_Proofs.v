(** Training error of the fitted trees. *)
From Coq Require Import Reals Lra QArith.
From Verif Require Import Base Tree_Model Tree_Spec Tree_Proofs KDReal_Proofs Impurity_Model Impurity_Spec Impurity_Proofs TreeReal_Proofs TreeFit_Spec.
Local Open Scope R_scope.
Set Implicit Arguments.

(** * Sums by groups *)
Lemma total_cons a l : total (a :: l) = a + total l.
Proof. reflexivity. Qed.
Lemma total_filter {A} (f : A -> R) (b : A -> bool) D :
  total (map f D) = total (map f (filter b D)) + total (map f (filter (fun e => negb (b e)) D)).
Proof.
  induction D as [|e D IH]; [cbn; lra|]. cbn [map filter]. destruct (b e); cbn [negb map]; rewrite !total_cons; lra.
Qed.
Lemma filter_shorter {A} (b : A -> bool) D : (length (filter b D) <= length D)%nat.
Proof. induction D as [|e D IH]; [auto|]. cbn. destruct (b e); cbn; lia. Qed.
Section Groups.
  Variables A K : Type.
  Variable eqd : forall a b : K, {a = b} + {a <> b}.
  Variable key : A -> K.
  Definition group k (D : list A) := filter (fun e => if eqd (key e) k then true else false) D.
  Lemma group_le (f g : A -> R) : forall n D, (length D <= n)%nat ->
    (forall k, In k (map key D) -> total (map f (group k D)) <= total (map g (group k D))) -> total (map f D) <= total (map g D).
  Proof.
    induction n as [|n IH]; intros D Hn H; [destruct D; [cbn; lra|cbn in Hn; lia]|]. destruct D as [|e D]; [cbn; lra|].
    set (b := fun e' => if eqd (key e') (key e) then true else false). rewrite (total_filter f b), (total_filter g b).
    apply Rplus_le_compat; [apply H; now left|]. apply IH.
    - cbn [filter]. unfold b at 1. destruct (eqd (key e) (key e)); [|congruence]. cbn [negb]. pose proof (filter_shorter (fun e0 => negb (b e0)) D). cbn in Hn. lia.
    - intros k Hk. apply in_map_iff in Hk. destruct Hk as (a & <- & Ha). apply filter_In in Ha. destruct Ha as (Ha & Hb).
      assert (Eg : group (key a) (filter (fun e0 => negb (b e0)) (e :: D)) = group (key a) (e :: D)).
      { unfold group. rewrite filter_filter. apply filter_ext_in. intros c _. unfold b in *. destruct (eqd (key a) (key e)) as [|N]; [discriminate|].
        destruct (eqd (key c) (key e)), (eqd (key c) (key a)); cbn; congruence. }
      rewrite Eg. apply H. apply in_map. exact Ha.
  Qed.
End Groups.

(** * The leaf an input ends in *)
Section Leaf.
  Variables I V : Type.
  Fixpoint leaf_path (t : dtree R I V) (x : list R) : list bool :=
    match t with
    | Null => []
    | Node i l r =>
        match l with
        | Null => []
        | Node _ _ _ =>
            match n_split i with
            | None => []
            | Some (f, v, _) => if goes_left Rltb f v x then true :: leaf_path l x else false :: leaf_path r x
            end
        end
    end.
  Lemma walk_leaf_path (t : dtree R I V) x i : walk Rltb t x = Ok i ->
    exists r, node_at t (leaf_path t x) = Node i Null r /\ follows Rltb t (leaf_path t x) x = true.
  Proof.
    induction t as [|i0 l IHl r IHr]; [discriminate|]. cbn [walk leaf_path]. destruct l as [|il ll lr] eqn:El.
    - intros [= <-]. exists r. auto.
    - rewrite <- El in *. destruct (n_split i0) as [[[f th] g]|] eqn:Es; [|discriminate].
      unfold vget. destruct (nth_error x f) as [xf|] eqn:Ex; [|discriminate]. cbn [bind].
      assert (Eg : goes_left Rltb f th x = leb Rltb xf th) by (unfold goes_left, leb; now rewrite Ex). rewrite <- Eg.
      destruct (goes_left Rltb f th x) eqn:G; intros Hw.
      + destruct (IHl Hw) as (r' & N & F). exists r'. split; [exact N|]. cbn [follows]. rewrite Es, G. exact F.
      + destruct (IHr Hw) as (r' & N & F). exists r'. split; [exact N|]. cbn [follows]. rewrite Es, G. exact F.
  Qed.
  Lemma follows_leaf_path (t : dtree R I V) x x' : follows Rltb t (leaf_path t x) x' = true -> leaf_path t x' = leaf_path t x.
  Proof.
    induction t as [|i0 l IHl r IHr]; [reflexivity|]. cbn [leaf_path]. destruct l as [|il ll lr] eqn:El; [reflexivity|]. rewrite <- El in *.
    destruct (n_split i0) as [[[f th] g]|] eqn:Es; [|reflexivity].
    destruct (goes_left Rltb f th x) eqn:G; cbn [follows]; rewrite Es; destruct (goes_left Rltb f th x') eqn:G'; cbn; intros H; try discriminate; f_equal; auto.
  Qed.
  Lemma leaf_same (t : dtree R I V) x x' : (forall k i l r, node_at t k = Node i l r -> l = Null -> r = Null) ->
    leaf_path t x = leaf_path t x' -> same_leaf t x x'.
  Proof.
    induction t as [|i0 l IHl r IHr]; intros HB.
    - intros _ p Hp. rewrite node_at_null in Hp. congruence.
    - cbn [leaf_path]. pose proof (HB [] i0 l r eq_refl) as H0.
      assert (HBl : forall k i l1 r1, node_at l k = Node i l1 r1 -> l1 = Null -> r1 = Null) by (intros k; apply (HB (true :: k))).
      assert (HBr : forall k i l1 r1, node_at r k = Node i l1 r1 -> l1 = Null -> r1 = Null) by (intros k; apply (HB (false :: k))).
      destruct l as [|il ll lr] eqn:El.
      + rewrite (H0 eq_refl). intros _ [|b p] Hp; [reflexivity|]. rewrite node_at_cons in Hp. destruct b; cbn [child] in Hp; rewrite node_at_null in Hp; congruence.
      + rewrite <- El in *. intros HP [|b p] Hp; [reflexivity|]. rewrite node_at_cons in Hp. cbn [follows].
        destruct (n_split i0) as [[[f th] g]|]; [|reflexivity].
        destruct (goes_left Rltb f th x), (goes_left Rltb f th x'); try discriminate; injection HP as HP;
          destruct b; cbn [child Bool.eqb andb] in *; auto; [exact (IHl HBl HP p Hp)|exact (IHr HBr HP p Hp)].
  Qed.
  Lemma same_leaf_walk (t : dtree R I V) x x' i i' : walk Rltb t x = Ok i -> walk Rltb t x' = Ok i' -> same_leaf t x x' -> i = i'.
  Proof.
    intros E E' H. destruct (walk_leaf_path t x E) as (r & N & F). destruct (walk_leaf_path t x' E') as (r' & N' & F').
    rewrite (H (leaf_path t x)) in F by congruence. apply follows_leaf_path in F. rewrite F in N'. congruence.
  Qed.
  Definition path_dec : forall a b : list bool, {a = b} + {a <> b} := list_eq_dec Bool.bool_dec.
End Leaf.

(** * Growing deeper refines the leaves *)
Section Deeper.
  Context {I V : Type}.
  Inductive pruned : dtree R I V -> dtree R I V -> Prop :=
  | pruned_null : pruned Null Null
  | pruned_leaf n v i l r : pruned (Node (Info n v None) Null Null) (Node i l r)
  | pruned_node i l r l' r' : pruned l l' -> pruned r r' -> pruned (Node i l r) (Node i l' r').
  Lemma pruned_nodes t1 t2 : pruned t1 t2 -> forall p x, node_at t1 p <> Null ->
    node_at t2 p <> Null /\ follows Rltb t1 p x = follows Rltb t2 p x.
  Proof.
    induction 1 as [|n v i l r|i l r l' r' H1 IH1 H2 IH2]; intros p x Hp.
    - rewrite node_at_null in Hp. congruence.
    - destruct p as [|b p]; [split; [discriminate|reflexivity]|]. rewrite node_at_cons in Hp. destruct b; cbn [child] in Hp; rewrite node_at_null in Hp; congruence.
    - destruct p as [|b p]; [split; [discriminate|reflexivity]|]. rewrite node_at_cons in *. cbn [follows].
      destruct b; cbn [child] in *; [destruct (IH1 p x Hp) as (A & B)|destruct (IH2 p x Hp) as (A & B)]; (split; [exact A|]); rewrite B; reflexivity.
  Qed.
  Lemma pruned_same_leaf t1 t2 x x' : pruned t1 t2 -> same_leaf t2 x x' -> same_leaf t1 x x'.
  Proof. intros H S p Hp. destruct (pruned_nodes H p x Hp) as (A & ->). destruct (pruned_nodes H p x' Hp) as (_ & ->). now apply S. Qed.

  Variables (gtb : I -> I -> bool) (imin : I) (gain : list R -> list R -> list R -> outcome I) (node_value : list R -> outcome (V * bool)) (nf : nat).
  Variables (mss msl : nat) (md : I) (d1 d2 : nat).
  Hypothesis Hd : (d1 <= d2)%nat.
  Lemma build_pruned f1 : forall f2 X y depth t1 t2,
    build_tree Rltb Rmid gtb imin gain node_value nf (Params mss msl d1 md) f1 X y depth = Ok t1 ->
    build_tree Rltb Rmid gtb imin gain node_value nf (Params mss msl d2 md) f2 X y depth = Ok t2 -> pruned t1 t2.
  Proof.
    induction f1 as [|f1 IH]; intros [|f2] X y depth t1 t2 E1 E2; try discriminate. cbn [build_tree min_samples_split min_samples_leaf max_depth min_decrease] in E1, E2.
    destruct (node_value y) as [[v stop]| | |]; cbn [bind] in *; try discriminate.
    destruct stop; [injection E1 as <-; injection E2 as <-; constructor|].
    destruct (length X <? mss)%nat; [injection E1 as <-; injection E2 as <-; constructor|].
    assert (Leaf : forall n w, t1 = Node (Info n w None) Null Null -> pruned t1 t2).
    { intros n w ->. destruct t2 as [|i l r]; [|constructor]. exfalso.
      destruct (d2 <? depth)%nat; [discriminate|]. destruct (best_split _ _ _ _ _ _ _ _) as [[b w2]| | |]; cbn [bind] in E2; try discriminate.
      destruct w2 as [[f th]|]; [|discriminate]. destruct (negb (gtb b md)); [discriminate|].
      destruct (column_of X f); cbn [bind] in E2; try discriminate. do 4 (destruct (rows_where _ _); cbn [bind] in E2; try discriminate).
      do 2 (match type of E2 with bind ?o _ = _ => destruct o end; cbn [bind] in E2; try discriminate). }
    destruct (Nat.ltb_spec d1 depth) as [L1|L1]; [injection E1 as <-; eauto|].
    destruct (Nat.ltb_spec d2 depth) as [L2|L2]; [lia|].
    destruct (best_split _ _ _ _ _ _ _ _) as [[b w2]| | |]; cbn [bind] in E1, E2; try discriminate.
    destruct w2 as [[f th]|]; [|injection E1 as <-; eauto]. destruct (negb (gtb b md)); [injection E1 as <-; eauto|]. clear Leaf.
    destruct (column_of X f); cbn [bind] in E1, E2; try discriminate. do 4 (destruct (rows_where _ _); cbn [bind] in E1, E2; try discriminate).
    match type of E1 with bind ?o _ = _ => destruct o as [l1| | |] eqn:F1 end; cbn [bind] in E1; try discriminate.
    match type of E1 with bind ?o _ = _ => destruct o as [r1| | |] eqn:G1 end; cbn [bind] in E1; try discriminate.
    match type of E2 with bind ?o _ = _ => destruct o as [l2| | |] eqn:F2 end; cbn [bind] in E2; try discriminate.
    match type of E2 with bind ?o _ = _ => destruct o as [r2| | |] eqn:G2 end; cbn [bind] in E2; try discriminate.
    injection E1 as <-. injection E2 as <-. constructor.
    - match type of F1 with (if ?b then _ else _) = _ => destruct b end; [eapply IH; eauto|]. injection F1 as <-. injection F2 as <-. constructor.
    - match type of G1 with (if ?b then _ else _) = _ => destruct b end; [eapply IH; eauto|]. injection G1 as <-. injection G2 as <-. constructor.
  Qed.
End Deeper.

(** * Optimal values in a group *)
Lemma hits_total a y : length a = length y -> INR (hits a y) = total (map (fun p => if Req_EM_T (fst p) (snd p) then 1 else 0) (combine a y)).
Proof.
  intros _. unfold hits. induction (combine a y) as [|p l IH]; [reflexivity|]. cbn [filter map]. rewrite total_cons. destruct (Req_EM_T (fst p) (snd p)); [cbn [length]; rewrite S_INR; lra|lra].
Qed.
Lemma total_count (c : R) ys : total (map (fun y => if Req_EM_T c y then 1 else 0) ys) = INR (count_occ Req_EM_T ys c).
Proof.
  induction ys as [|y ys IH]; [reflexivity|]. cbn [map count_occ]. rewrite total_cons, IH. destruct (Req_EM_T c y) as [->|N]; destruct (Req_EM_T y _) as [E|E]; try congruence; rewrite ?S_INR; lra.
Qed.
Lemma mean_best ys c : ys <> [] -> let m := total ys / INR (length ys) in
  total (map (fun y => (m - y) * (m - y)) ys) <= total (map (fun y => (c - y) * (c - y)) ys).
Proof.
  intros Hn m. assert (Q : forall a, total (map (fun y => (a - y) * (a - y)) ys) = INR (length ys) * (a * a) - 2 * a * total ys + total (map (fun y => y * y) ys)).
  { intro a. clear. induction ys as [|y ys IH]; [cbn; lra|]. cbn [map length]. rewrite !total_cons, IH, S_INR. ring. }
  rewrite !Q. assert (P : 0 < INR (length ys)) by (apply lt_0_INR; destruct ys; [congruence|cbn; lia]).
  assert (E : total ys = INR (length ys) * m) by (unfold m; field; lra). rewrite E. pose proof (Rle_0_sqr (c - m)) as S. unfold Rsqr in S. nra.
Qed.
Lemma combine_map_l {A B} (f : A -> R) (X : list A) (y : list B) : combine (map f X) y = map (fun e => (f (fst e), snd e)) (combine X y).
Proof. revert y. induction X as [|x X IH]; intros [|b y]; cbn; auto. f_equal. apply IH. Qed.

Section LeafGroups.
  Context {I V : Type}.
  Variable t : dtree R I V.
  Lemma leaf_groups (D : list (list R * R)) f g :
    (forall e, In e D -> exists i, walk Rltb t (fst e) = Ok i) ->
    (forall p i r, node_at t p = Node i Null r -> rows_at Rltb t p D <> [] ->
       (forall e, In e (rows_at Rltb t p D) -> walk Rltb t (fst e) = Ok i /\ leaf_path t (fst e) = p) ->
       total (map f (rows_at Rltb t p D)) <= total (map g (rows_at Rltb t p D))) ->
    total (map f D) <= total (map g D).
  Proof.
    intros HW H. apply (@group_le _ _ path_dec (fun e => leaf_path t (fst e)) f g (length D) D (le_n _)).
    intros k Hk. apply in_map_iff in Hk. destruct Hk as (e & <- & He). destruct (HW e He) as (i & Ei). destruct (walk_leaf_path t (fst e) Ei) as (r & Hn & Hf).
    assert (Eg : group path_dec (fun e0 => leaf_path t (fst e0)) (leaf_path t (fst e)) D = rows_at Rltb t (leaf_path t (fst e)) D).
    { unfold group, rows_at. apply filter_ext_in. intros a Ha. destruct (HW a Ha) as (j & Ej). destruct (walk_leaf_path t (fst a) Ej) as (r' & Hn' & Hf').
      destruct (path_dec _ _) as [Q|Q]; [rewrite <- Q; auto|]. destruct (follows Rltb t (leaf_path t (fst e)) (fst a)) eqn:F; [|reflexivity]. apply follows_leaf_path in F. congruence. }
    rewrite Eg. apply (H _ i r Hn).
    - intros Z. assert (In e (rows_at Rltb t (leaf_path t (fst e)) D)) as Hin by (apply filter_In; auto). rewrite Z in Hin. destruct Hin.
    - intros a Ha. apply filter_In in Ha. destruct Ha as (Ha & Fa). apply follows_leaf_path in Fa. split; [|exact Fa].
      destruct (HW a Ha) as (j & Ej). rewrite Ej. destruct (walk_leaf_path t (fst a) Ej) as (r' & Hn' & _). rewrite Fa in Hn'. congruence.
  Qed.
End LeafGroups.
