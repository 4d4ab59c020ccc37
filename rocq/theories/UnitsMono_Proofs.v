(** Decision trees under increasing maps of the features: the trees differ only in their thresholds. *)
From Coq Require Import Reals Lra QArith.
From Verif Require Import Base Sorting Common_Model Argsort_Model Argsort_Proofs Split_Model Tree_Model Tree_Spec Tree_Proofs TreeReal_Proofs Impurity_Model KDReal_Proofs KDHom_Proofs Units_Spec Units_Proofs.
Set Implicit Arguments.
Local Open Scope R_scope.

Lemma orel_bind {A B A' B'} (r : A -> B -> Prop) (r' : A' -> B' -> Prop) o o' k k' :
  same_outcome r o o' -> (forall a b, o = Ok a -> o' = Ok b -> r a b -> same_outcome r' (k a) (k' b)) -> same_outcome r' (bind o k) (bind o' k').
Proof. destruct o, o'; cbn; intros H HK; try contradiction; auto. Qed.
Lemma orel_refl {A} (r : A -> A -> Prop) (o : outcome A) : (forall a, r a a) -> same_outcome r o o.
Proof. destruct o; cbn; auto. Qed.
Lemma orel_foldM {S S' B B'} (r : S -> S' -> Prop) (q : B -> B' -> Prop) k k' l l' : Forall2 q l l' ->
  (forall s s' b b', q b b' -> r s s' -> same_outcome r (k s b) (k' s' b')) -> forall s s', r s s' -> same_outcome r (foldM k l s) (foldM k' l' s').
Proof.
  intros H HK. induction H as [|b b' l l' Hb H IH]; intros s s' Hs; cbn [foldM]; [exact Hs|].
  eapply orel_bind; [now apply HK|]. intros. now apply IH.
Qed.

Lemma forall2_impl {A B} (r q : A -> B -> Prop) l l' : (forall a b, r a b -> q a b) -> Forall2 r l l' -> Forall2 q l l'.
Proof. intros H. induction 1; constructor; auto. Qed.

Section Mono.
  Variable phi : R -> R.
  Hypothesis Hphi : forall u v, u < v -> phi u < phi v.
  Lemma mono_le u v : u <= v -> phi u <= phi v.
  Proof. intros [H| ->]; [left; now apply Hphi|right; reflexivity]. Qed.
  Lemma mono_Rltb u v : Rltb (phi u) (phi v) = Rltb u v.
  Proof.
    destruct (Rltb u v) eqn:E.
    - apply Rltb_true in E. apply Rltb_true. now apply Hphi.
    - apply Rltb_false in E. apply Rltb_false. now apply mono_le.
  Qed.

  (** Midpoints of neighbours before and after. *)
  Fixpoint pairs (s : list R) : list (R * R) :=
    match s with a :: ((b :: _) as s') => (Rmid a b, Rmid (phi a) (phi b)) :: pairs s' | _ => [] end.
  Lemma pairs_fst s : mids Rmid s = map fst (pairs s).
  Proof. induction s as [|a [|b s] IH]; try reflexivity. cbn [mids pairs map fst] in *. now rewrite IH. Qed.
  Lemma pairs_snd s : mids Rmid (map phi s) = map snd (pairs s).
  Proof. induction s as [|a [|b s] IH]; try reflexivity. cbn [mids pairs map snd] in *. now rewrite IH. Qed.
  Definition sorted := StronglySorted (fun u v => Rltb v u = false).
  Lemma pairs_spec s : sorted s -> forall p, In p (pairs s) -> exists u v, In u s /\ In v s /\ u <= v /\ p = (Rmid u v, Rmid (phi u) (phi v)) /\
    forall w, In w s -> w <= u \/ v <= w.
  Proof.
    induction 1 as [|a s Hs IH Ha]; intros p Hp; [contradiction|]. destruct s as [|b s]; [contradiction|]. cbn [pairs In] in Hp. rewrite Forall_forall in Ha.
    assert (HA : forall x, In x (b :: s) -> a <= x) by (intros x Hx; apply Rltb_false, Ha, Hx).
    destruct Hp as [<-|Hp].
    - exists a, b. split; [now left|]. split; [right; now left|]. split; [apply HA; now left|]. split; [reflexivity|].
      intros w [<-|[<-|Hw]]; [left; lra|right; lra|right]. inversion Hs as [|? ? _ Hb]; subst. rewrite Forall_forall in Hb. apply Rltb_false, Hb, Hw.
    - destruct (IH p Hp) as (u & v & Hu & Hv & Huv & E & Hw). exists u, v. split; [now right|]. split; [now right|]. split; [assumption|]. split; [assumption|].
      intros w [<-|H]; [left; now apply HA|auto].
  Qed.
  Lemma pairs_order s : sorted s -> forall p q, In p (pairs s) -> In q (pairs s) -> Rltb (snd p) (snd q) = Rltb (fst p) (fst q).
  Proof.
    assert (K : forall a b u v, a <= b -> b <= u -> u <= v ->
      Rltb (Rmid (phi a) (phi b)) (Rmid (phi u) (phi v)) = Rltb (Rmid a b) (Rmid u v) /\ Rltb (Rmid (phi u) (phi v)) (Rmid (phi a) (phi b)) = Rltb (Rmid u v) (Rmid a b)).
    { intros a b u v H1 H2 H3. pose proof (mono_le H1). pose proof (mono_le H2). pose proof (mono_le H3). unfold Rmid. split.
      - destruct (Rle_lt_dec v a) as [Hv|Hv].
        + assert (b = a) as -> by lra. assert (u = a) as -> by lra. assert (v = a) as -> by lra. transitivity false; [|symmetry]; apply Rltb_false; lra.
        + apply Hphi in Hv as Hv'. transitivity true; [|symmetry]; apply Rltb_true; lra.
      - transitivity false; [|symmetry]; apply Rltb_false; lra. }
    assert (I : forall x, Rltb x x = false) by (intros x; apply Rltb_false; lra).
    induction 1 as [|a s Hs IH Ha]; intros p q Hp Hq; [contradiction|]. destruct s as [|b s]; [contradiction|]. cbn [pairs In] in Hp, Hq. rewrite Forall_forall in Ha.
    assert (Hab : a <= b) by (apply Rltb_false, Ha; now left).
    assert (G : forall r, In r (pairs (b :: s)) -> exists u v, b <= u /\ u <= v /\ r = (Rmid u v, Rmid (phi u) (phi v))).
    { intros r Hr. destruct (pairs_spec Hs r Hr) as (u & v & Hu & _ & Huv & E & _). exists u, v. split; [|auto].
      destruct Hu as [->|Hu]; [lra|]. inversion Hs as [|? ? _ Hb]; subst. rewrite Forall_forall in Hb. apply Rltb_false, Hb, Hu. }
    destruct Hp as [<-|Hp]; destruct Hq as [<-|Hq].
    - now rewrite !I.
    - destruct (G q Hq) as (u & v & H1 & H2 & ->). exact (proj1 (K a b u v Hab H1 H2)).
    - destruct (G p Hp) as (u & v & H1 & H2 & ->). exact (proj2 (K a b u v Hab H1 H2)).
    - now apply IH.
  Qed.

  (** Removing duplicates. *)
  Lemma uniq_map {A} (f : A -> R) l : uniq Rltb (map f l) = map f (uniq (fun x y => Rltb (f x) (f y)) l).
  Proof.
    destruct l as [|a l]; [reflexivity|]. cbn [map uniq]. revert a. induction l as [|b l IH]; intros a; [reflexivity|]. cbn [map uniq_from]. unfold eqb at 1 2.
    destruct (negb (Rltb (f a) (f b)) && negb (Rltb (f b) (f a))); [apply IH|]. cbn [map]. now rewrite IH.
  Qed.
  Lemma uniq_ext {A} (lt lt' : A -> A -> bool) l : (forall x y, In x l -> In y l -> lt x y = lt' x y) -> uniq lt l = uniq lt' l.
  Proof.
    destruct l as [|a l]; [reflexivity|]. cbn [uniq]. revert a. induction l as [|b l IH]; intros a H; [reflexivity|]. cbn [uniq_from]. unfold eqb.
    assert (E : forall x y, In x [a; b] -> In y [a; b] -> lt x y = lt' x y) by (intros x y Hx Hy; apply H; cbn in *; tauto).
    rewrite !E by (cbn; auto). rewrite (IH a), (IH b); [reflexivity| |]; intros x y Hx Hy; apply H; cbn in *; tauto.
  Qed.
  Lemma uniq_In {A} (lt : A -> A -> bool) l x : In x (uniq lt l) -> In x l.
  Proof.
    destruct l as [|a l]; [auto|]. cbn [uniq]. revert a. induction l as [|b l IH]; intros a; [auto|]. cbn [uniq_from]. destruct (eqb lt a b).
    - intros H. apply IH in H. cbn in *. tauto.
    - intros [H|H]; [now left|]. apply IH in H. now right.
  Qed.

  Definition same_cut (x : list R) (t t' : R) : Prop := forall w, In w x -> Rltb t' (phi w) = Rltb t w.
  Lemma thresholds_mono x : same_outcome (Forall2 (same_cut x)) (choose_feature_threshold Rltb Rmid x) (choose_feature_threshold Rltb Rmid (map phi x)).
  Proof.
    destruct (Nat.le_gt_cases 3 (length x)) as [H|H].
    - destruct (argsort_col_spec Rltb (asym Rltb_order) (co Rltb_order) x 0 H) as (idx & E & HP & HS).
      assert (Hr : forall i, In i idx -> (i < length x)%nat).
      { intros i Hi. assert (In i (seq 0 (length x))) as Hs by (eapply Permutation_in; eassumption). apply in_seq in Hs. lia. }
      destruct (select_sorted Rltb x 0 Hr HS) as (E2 & HS2).
      unfold choose_feature_threshold. rewrite (argsort_hom _ _ phi Rltb Rltb mono_Rltb), E. cbn [bind]. rewrite (mapM_hom' phi (vget x) (vget (map phi x))) by (intros; apply vget_hom).
      rewrite E2. cbn [bind omap same_outcome]. set (s := map (fun i => nth i x 0) idx) in *.
      assert (HPs : Permutation s x). { unfold s. rewrite HP. clear. rewrite <- (map_nth_seq_id x 0) at 2. reflexivity. }
      rewrite pairs_fst, pairs_snd. set (L := pairs s).
      set (lt1 := fun p q : R * R => Rltb (fst p) (fst q)). set (lt2 := fun p q : R * R => Rltb (snd p) (snd q)).
      rewrite (isort_hom fst lt1 Rltb) by reflexivity. rewrite (isort_hom snd lt2 Rltb) by reflexivity. rewrite !uniq_map. fold lt1 lt2.
      assert (O : forall p q, In p L -> In q L -> lt2 p q = lt1 p q) by (apply (pairs_order HS2)).
      rewrite (@isort_ext _ lt2 lt1) by exact O. rewrite (@uniq_ext _ lt2 lt1).
      2: { intros p q Hp Hq. apply O; (eapply Permutation_in; [symmetry; apply isort_perm|]; eassumption). }
      assert (HI : forall p, In p (uniq lt1 (isort lt1 L)) -> In p L).
      { intros p Hp. apply uniq_In in Hp. eapply Permutation_in; [symmetry; apply isort_perm|]; eassumption. }
      revert HI. generalize (uniq lt1 (isort lt1 L)). induction l as [|p l IH]; intros HI; cbn [map]; constructor; [|apply IH; intros; apply HI; now right].
      destruct (pairs_spec HS2 p (HI p (or_introl eq_refl))) as (u & v & Hu & Hv & Huv & -> & Hw). intros w Hin. cbn [fst snd].
      assert (In w s) as Hin' by (eapply Permutation_in; [symmetry; exact HPs|assumption]). pose proof (mono_le Huv). unfold Rmid.
      destruct (Hw w Hin') as [Hwu|Hvw].
      + pose proof (mono_le Hwu). transitivity false; [|symmetry]; apply Rltb_false; lra.
      + pose proof (mono_le Hvw). destruct (Rle_lt_dec w u) as [Hx|Hx].
        * assert (v = w) as -> by lra. assert (u = w) as -> by lra. transitivity false; [|symmetry]; apply Rltb_false; lra.
        * apply Hphi in Hx as Hx'. transitivity true; [|symmetry]; apply Rltb_true; lra.
    - destruct x as [|a [|b [|c x]]]; cbn in H; try lia.
      + cbn. constructor.
      + unfold choose_feature_threshold. rewrite !argsort_col_one by reflexivity. exact I.
      + unfold choose_feature_threshold. rewrite !argsort_col_two by reflexivity. exact I.
  Qed.
End Mono.

Section Grow.
  Variable phi : nat -> R -> R.
  Hypothesis Hphi : forall j u v, u < v -> phi j u < phi j v.
  Notation conv := (map (convert phi)).
  Variable psi : R -> R.
  Variables gain gain' : list R -> list R -> list R -> outcome R.
  Hypothesis Hgain : forall y l r, gain' (map psi y) (map psi l) (map psi r) = gain y l r.
  Variables V V' : Type.
  Variable rv : V -> V' -> Prop.
  Variable node_value : list R -> outcome (V * bool).
  Variable node_value' : list R -> outcome (V' * bool).
  Hypothesis Hval : forall y, same_outcome (fun p p' => rv (fst p) (fst p') /\ snd p' = snd p) (node_value y) (node_value' (map psi y)).

  (** A threshold of feature [f] sends the rows of X the same way. *)
  Definition cut (X : list (list R)) (f : nat) (t t' : R) : Prop :=
    forall r w, In r X -> vget r f = Ok w -> Rltb t' (phi f w) = Rltb t w.
  Lemma column_Ok X f xs : column_of X f = Ok xs -> xs = map (fun r => nth f r 0) X /\ forall r, In r X -> vget r f = Ok (nth f r 0).
  Proof.
    unfold column_of. revert xs. induction X as [|r X IH]; intros xs; cbn [mapM].
    - intros [= <-]. split; [reflexivity|intros ? []].
    - destruct (vget r f) as [w| | |] eqn:E; cbn [bind]; try discriminate. destruct (mapM (fun r0 => vget r0 f) X) as [ws| | |]; cbn [bind]; try discriminate.
      intros [= <-]. destruct (IH ws eq_refl) as (-> & H).
      assert (w = nth f r 0) as -> by (unfold vget in E; destruct (nth_error r f) eqn:En; [injection E as <-; symmetry; now apply nth_error_nth|discriminate]).
      split; [reflexivity|]. intros r' [<-|Hr]; auto.
  Qed.
  Lemma divide_cut X f t t' : cut X f t t' -> divide_on_feature (leb Rltb) (conv X) f t' = divide_on_feature (leb Rltb) X f t.
  Proof.
    unfold divide_on_feature. generalize (@nil nat) at 1 3. generalize (@nil nat). generalize 0%nat. induction X as [|r X IH]; intros i l1 l2 HC; cbn [map divide_loop]; [reflexivity|].
    rewrite vget_convert. destruct (vget r f) as [w| | |] eqn:E; cbn [bind omap]; try reflexivity.
    assert (El : leb Rltb (phi f w) t' = leb Rltb w t) by (unfold leb; f_equal; apply (HC r w); [now left|assumption]).
    rewrite El. assert (HC' : cut X f t t') by (intros r' w' Hr; apply HC; now right). destruct (leb Rltb w t); now apply IH.
  Qed.
  Definition best_rel (X : list (list R)) (b b' : R * option (nat * R)) : Prop :=
    fst b' = fst b /\ match snd b, snd b' with
    | None, None => True
    | Some (f, t), Some (f', t') => f' = f /\ cut X f t t'
    | _, _ => False
    end.
  Lemma best_split_mono nf X y : same_outcome (best_rel X) (best_split Rltb Rmid Rgtb dbl_min gain nf X y) (best_split Rltb Rmid Rgtb dbl_min gain' nf (conv X) (map psi y)).
  Proof.
    unfold best_split. apply orel_foldM with (q := eq); [|..|split; [reflexivity|exact I]].
    { generalize (seq 0 nf). induction l; constructor; auto. }
    intros b b' f ? <- Hb. rewrite (column_hom phi). destruct (column_of X f) as [x| | |] eqn:EC; cbn [bind omap]; try exact I; [|reflexivity].
    destruct (column_Ok _ _ EC) as (Hx & HX).
    eapply orel_bind; [apply thresholds_mono; apply Hphi|]. intros ts ts' _ _ HT.
    assert (HT' : Forall2 (cut X f) ts ts').
    { eapply forall2_impl; [|exact HT]. intros t t' Hc r w Hr Ew. apply Hc. rewrite HX in Ew by assumption. injection Ew as <-. rewrite Hx. now apply (in_map (fun r => nth f r 0)). }
    clear HT. revert b b' Hb. eapply orel_foldM; [exact HT'|]. intros b b' t t' Hc Hb. unfold try_split. rewrite (divide_cut Hc).
    destruct (divide_on_feature (leb Rltb) X f t) as [(li & ri)| | |]; cbn [bind]; try exact I; [|reflexivity].
    rewrite (mapM_hom' psi (vget y) (vget (map psi y))) by (intros; apply vget_hom). destruct (mapM (vget y) li) as [ly| | |]; cbn [bind omap]; try exact I; [|reflexivity].
    rewrite (mapM_hom' psi (vget y) (vget (map psi y))) by (intros; apply vget_hom). destruct (mapM (vget y) ri) as [ry| | |]; cbn [bind omap]; try exact I; [|reflexivity].
    rewrite Hgain. destruct (gain y ly ry) as [g| | |]; cbn [bind]; try exact I; [|reflexivity].
    rewrite (proj1 Hb). destruct (Rgtb g (fst b)); [|exact Hb]. split; [reflexivity|]. cbn. auto.
  Qed.

  Definition tree_rel (X : list (list R)) (t : dtree R R V) (t' : dtree R R V') : Prop :=
    alike rv t t' /\ forall r, In r X -> same_outcome (alike_info rv) (walk Rltb t r) (walk Rltb t' (convert phi r)).
  Lemma build_tree_mono nf P fuel : forall X y d,
    same_outcome (tree_rel X) (Tree_Model.build_tree Rltb Rmid Rgtb dbl_min gain node_value nf P fuel X y d)
      (Tree_Model.build_tree Rltb Rmid Rgtb dbl_min gain' node_value' nf P fuel (conv X) (map psi y) d).
  Proof.
    induction fuel as [|fuel IH]; intros X y d; [exact I|]. cbn [Tree_Model.build_tree]. rewrite map_length.
    eapply orel_bind; [apply Hval|]. intros (v & stop) (v' & stop') _ _ (Hv & Es). cbn [fst snd] in Hv, Es. subst stop'.
    assert (HL : same_outcome (tree_rel X) (Ok (Node (Info (length X) v None) Null Null)) (Ok (Node (Info (length X) v' None) Null Null))).
    { cbn. split; [cbn; unfold alike_info; cbn; tauto|]. intros r _. cbn. unfold alike_info. cbn. tauto. }
    destruct stop; [exact HL|]. destruct (length X <? min_samples_split P)%nat; [exact HL|]. destruct (max_depth P <? d)%nat; [exact HL|].
    eapply orel_bind; [apply best_split_mono|]. intros (g & best) (g' & best') _ _ (Eg & Hb). cbn [fst snd] in Eg, Hb. subst g'.
    destruct best as [(f & t)|]; destruct best' as [(f' & t')|]; try contradiction; [|exact HL]. destruct Hb as (-> & Hc).
    destruct (negb (Rgtb g (min_decrease P))); [exact HL|]. rewrite (column_hom phi).
    destruct (column_of X f) as [xs| | |] eqn:EC; cbn [bind omap]; try exact I; [|reflexivity]. destruct (column_Ok _ _ EC) as (Hx & HX).
    rewrite !map_map.
    assert (E1 : map (fun w => leb Rltb (phi f w) t') xs = map (fun w => leb Rltb w t) xs).
    { rewrite Hx. apply map_ext_in. intros w Hw. apply in_map_iff in Hw. destruct Hw as (r & <- & Hr). unfold leb. f_equal. apply (Hc r); auto. }
    assert (E2 : map (fun w => Rltb t' (phi f w)) xs = map (fun w => Rltb t w) xs).
    { rewrite Hx. apply map_ext_in. intros w Hw. apply in_map_iff in Hw. destruct Hw as (r & <- & Hr). apply (Hc r); auto. }
    rewrite E1, E2, !rows_where_hom. rewrite Hx, !map_map.
    set (bl := map (fun r => leb Rltb (nth f r 0) t) X). set (br := map (fun r => Rltb t (nth f r 0)) X).
    assert (EL : rows_where bl X = Ok (filter (fun r => leb Rltb (nth f r 0) t) X)) by (apply where_select).
    assert (ER : rows_where br X = Ok (filter (fun r => Rltb t (nth f r 0)) X)) by (apply where_select).
    rewrite EL, ER. cbn [omap bind]. set (lx := filter (fun r => leb Rltb (nth f r 0) t) X) in *. set (rx := filter (fun r => Rltb t (nth f r 0)) X) in *.
    destruct (rows_where bl y) as [ly| | |]; cbn [omap bind]; try exact I; [|reflexivity].
    destruct (rows_where br y) as [ry| | |]; cbn [omap bind]; try exact I; [|reflexivity].
    rewrite !map_length.
    assert (N : forall X (b : bool) o o', same_outcome (tree_rel X) o o' -> same_outcome (tree_rel X) (if b then o else Ok Null) (if b then o' else Ok Null)).
    { intros Y [] o o' H; [exact H|]. cbn. split; [exact I|]. intros r _. exact I. }
    eapply orel_bind; [apply N, IH|]. intros l l' _ _ Hl. eapply orel_bind; [apply N, IH|]. intros r r' _ _ Hr.
    cbn [same_outcome]. split; [split; [unfold alike_info; cbn; auto|split; [apply Hl|apply Hr]]|].
    intros q Hq. cbn [walk]. destruct Hl as (Al & Wl). destruct Hr as (Ar & Wr).
    destruct l as [|il l1 l2]; destruct l' as [|il' l1' l2']; try contradiction Al.
    - cbn. unfold alike_info. cbn. auto.
    - cbn [n_split]. rewrite vget_convert, HX by assumption. cbn [omap bind].
      assert (El : leb Rltb (phi f (nth f q 0)) t' = leb Rltb (nth f q 0) t) by (unfold leb; f_equal; apply (Hc q); auto).
      rewrite El. destruct (leb Rltb (nth f q 0) t) eqn:Eq.
      + apply Wl. unfold lx. apply filter_In. auto.
      + apply Wr. unfold rx. apply filter_In. split; [assumption|]. unfold leb in Eq. now apply negb_false_iff in Eq.
  Qed.
  Lemma grow_mono nf P X y : same_outcome (tree_rel X) (grow Rltb Rmid Rgtb dbl_min gain node_value nf P X y)
    (grow Rltb Rmid Rgtb dbl_min gain' node_value' nf P (conv X) (map psi y)).
  Proof. apply build_tree_mono. Qed.
End Grow.
