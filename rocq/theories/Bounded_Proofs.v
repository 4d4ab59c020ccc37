(** On doubles that cannot overflow, the KD-tree code computes what the rounded-reals model computes: the two runs are related step by step. *)
From Coq Require Import Reals Lra.
From Flocq Require Import Core BinarySingleNaN.
From Verif Require Import Base Sorting Common_Model Argsort_Model KDTree_Model KDTree_Spec KDReal_Proofs Round_Spec Round_Proofs Double_Spec Double_Model Double_Proofs Bounded_Spec.
Local Open Scope R_scope.

(** * Related outcomes *)
Inductive orel {A B} (R : A -> B -> Prop) : outcome A -> outcome B -> Prop :=
| o_ok a b : R a b -> orel R (Ok a) (Ok b)
| o_throw e : orel R (Throw e) (Throw e)
| o_ub : orel R UB UB
| o_fuel : orel R Fuel Fuel.
Arguments o_ok {A B R}. Arguments o_throw {A B R}. Arguments o_ub {A B R}. Arguments o_fuel {A B R}.
Lemma orel_bind {A B A' B'} (R : A -> B -> Prop) (S : A' -> B' -> Prop) o o' k k' : orel R o o' -> (forall a b, R a b -> orel S (k a) (k' b)) -> orel S (bind o k) (bind o' k').
Proof. intros H Hk. destruct H; cbn [bind]; [now apply Hk|constructor|constructor|constructor]. Qed.
Lemma orel_mapM {A B A' B'} (R : A -> B -> Prop) (S : A' -> B' -> Prop) f g l l' : Forall2 R l l' -> (forall a b, R a b -> orel S (f a) (g b)) -> orel (Forall2 S) (mapM f l) (mapM g l').
Proof.
  intros H Hf. induction H as [|a b l l' Hab H IH]; cbn [mapM]; [constructor; constructor|]. eapply orel_bind; [apply Hf, Hab|]. intros c d Hcd.
  eapply orel_bind; [exact IH|]. intros cs ds Hs. constructor. now constructor.
Qed.
Lemma orel_mapM_same {A A' B'} (S : A' -> B' -> Prop) (f : A -> outcome A') g l : (forall a, In a l -> orel S (f a) (g a)) -> orel (Forall2 S) (mapM f l) (mapM g l).
Proof.
  intros Hf. induction l as [|a l IH]; cbn [mapM]; [constructor; constructor|]. eapply orel_bind; [apply Hf; now left|]. intros c d Hcd.
  eapply orel_bind; [apply IH; intros; apply Hf; now right|]. intros cs ds Hs. constructor. now constructor.
Qed.
Lemma orel_foldM {A B A' B'} (R : A -> B -> Prop) (S : A' -> B' -> Prop) f g l l' : Forall2 R l l' -> (forall s s' a b, S s s' -> R a b -> orel S (f s a) (g s' b)) ->
  forall s s', S s s' -> orel S (foldM f l s) (foldM g l' s').
Proof.
  intros H Hf. induction H as [|a b l l' Hab H IH]; intros s s' Hs; cbn [foldM]; [now constructor|]. eapply orel_bind; [apply Hf; eassumption|]. exact IH.
Qed.
Lemma F2_nth {A B} (R : A -> B -> Prop) l l' i : Forall2 R l l' -> match nth_error l i, nth_error l' i with Some a, Some b => R a b | None, None => True | _, _ => False end.
Proof. intros H. revert i. induction H as [|a b l l' Hab H IH]; intros [|i]; cbn [nth_error]; [exact I|exact I|exact Hab|apply IH]. Qed.
Lemma F2_len {A B} (R : A -> B -> Prop) l l' : Forall2 R l l' -> length l = length l'.
Proof. induction 1; cbn; congruence. Qed.
Lemma F2_app {A B} (R : A -> B -> Prop) l l' m m' : Forall2 R l l' -> Forall2 R m m' -> Forall2 R (l ++ m) (l' ++ m').
Proof. intros H1 H2. now apply Forall2_app. Qed.
Lemma F2_firstn {A B} (R : A -> B -> Prop) n : forall l l', Forall2 R l l' -> Forall2 R (firstn n l) (firstn n l').
Proof. induction n; intros l l' H; [constructor|]. destruct H; cbn; constructor; auto. Qed.
Lemma F2_skipn {A B} (R : A -> B -> Prop) n : forall l l', Forall2 R l l' -> Forall2 R (skipn n l) (skipn n l').
Proof. induction n; intros l l' H; [exact H|]. destruct H; cbn; auto. Qed.
Lemma orel_vget {A B} (R : A -> B -> Prop) l l' i : Forall2 R l l' -> orel R (vget l i) (vget l' i).
Proof. intros H. unfold vget. pose proof (F2_nth R l l' i H) as N. destruct (nth_error l i), (nth_error l' i); try contradiction; now constructor. Qed.
Lemma orel_vset {A B} (R : A -> B -> Prop) l l' i a b : Forall2 R l l' -> R a b -> orel (Forall2 R) (vset l i a) (vset l' i b).
Proof.
  intros H Hab. unfold vset. rewrite <- (F2_len _ _ _ H). destruct (i <? length l)%nat; constructor. apply F2_app; [now apply F2_firstn|]. constructor; [exact Hab|now apply (F2_skipn R (S i))].
Qed.
Definition oprel {A B} (R : A -> B -> Prop) (o : option A) (o' : option B) : Prop := match o, o' with Some a, Some b => R a b | None, None => True | _, _ => False end.
Lemma isort_ext {A} (f g : A -> A -> bool) l : (forall a b, In a l -> In b l -> f a b = g a b) -> isort f l = isort g l.
Proof.
  assert (G : forall a l, (forall b, In b l -> f b a = g b a) -> ins f a l = ins g a l).
  { intros a l'. induction l' as [|b l' IH]; intros H; cbn [ins]; [reflexivity|]. rewrite (H b) by (now left). destruct (g b a); [|reflexivity].
    f_equal. apply IH. intros c Hc. apply H. now right. }
  induction l as [|a l IH]; intros H; [reflexivity|]. cbn [isort]. rewrite IH by (intros; apply H; now right). apply G.
  intros b Hb. apply H; [right; now apply isort_In in Hb|now left].
Qed.

(** * The KD-tree on doubles and on rounded reals.  [P] relates coordinates, [S] differences of coordinates, [D] distances. *)
Section Related.
  Variables (rnd : R -> R) (P S D : double -> R -> Prop).
  Hypothesis lt_rel : forall a b x y, D a x -> D b y -> dlt a b = Rltb x y.
  Hypothesis PD : forall a x, P a x -> D a x.
  Hypothesis sub_rel : forall a b x y, P a x -> P b y -> S (dsub a b) (rsub rnd x y).
  Hypothesis abs_rel : forall a x, S a x -> D (dabs a) (Rabs x).
  Hypothesis D_fin : forall a x, D a x -> finite a.
  Let Plt a b x y : P a x -> P b y -> dlt a b = Rltb x y.
  Proof. auto. Qed.
  Notation Rows := (Forall2 (Forall2 P)).

  Lemma select_rel {A B} (R : A -> B -> Prop) v v' idx : Forall2 R v v' -> orel (Forall2 R) (select v idx) (select v' idx).
  Proof. intros H. apply orel_mapM_same. intros i _. now apply orel_vget. Qed.
  Lemma col_of_rel X X' j : Rows X X' -> orel (Forall2 P) (col_of X j) (col_of X' j).
  Proof. intros H. unfold col_of. eapply orel_mapM; [exact H|]. intros r r' Hr. now apply orel_vget. Qed.
  Lemma tmin_rel a b x y : P a x -> P b y -> P (tmin dlt a b) (tmin Rltb x y).
  Proof. intros H1 H2. unfold tmin. rewrite (Plt _ _ _ _ H2 H1). now destruct (Rltb y x). Qed.
  Lemma tmax_rel a b x y : P a x -> P b y -> P (tmax dlt a b) (tmax Rltb x y).
  Proof. intros H1 H2. unfold tmax. rewrite (Plt _ _ _ _ H1 H2). now destruct (Rltb x y). Qed.
  Lemma fold_rel (f : double -> double -> double) (g : R -> R -> R) : (forall a b x y, P a x -> P b y -> P (f a b) (g x y)) ->
    forall l l', Forall2 P l l' -> forall a x, P a x -> P (fold_left f l a) (fold_left g l' x).
  Proof. intros Hf l l' H. induction H as [|b y l l' Hb H IH]; intros a x Ha; cbn [fold_left]; auto. Qed.
  Lemma col_min_rel c c' : Forall2 P c c' -> oprel P (col_min dlt c) (col_min Rltb c').
  Proof. intros H. destruct H; cbn [col_min oprel]; [exact I|]. now apply fold_rel; [apply tmin_rel| |]. Qed.
  Lemma col_max_rel c c' : Forall2 P c c' -> oprel P (col_max dlt c) (col_max Rltb c').
  Proof. intros H. destruct H; cbn [col_max oprel]; [exact I|]. now apply fold_rel; [apply tmax_rel| |]. Qed.
  Lemma col_range_rel c c' : Forall2 P c c' -> oprel D (col_range dlt dsub dabs c) (col_range Rltb (rsub rnd) Rabs c').
  Proof.
    intros H. unfold col_range. pose proof (col_min_rel _ _ H) as H1. pose proof (col_max_rel _ _ H) as H2.
    destruct (col_min dlt c), (col_min Rltb c'), (col_max dlt c), (col_max Rltb c'); try contradiction; try exact I. cbn [oprel] in *. auto.
  Qed.
  Lemma widest_rel rs rs' : Forall2 (oprel D) rs rs' -> forall i best br br', oprel D br br' -> widest dlt rs i best br = widest Rltb rs' i best br'.
  Proof.
    induction 1 as [|r r' rs rs' Hr H IH]; intros i best br br' Hb; cbn [widest]; [reflexivity|].
    destruct r as [a|], r' as [x|], br as [b|], br' as [y|]; try contradiction; try (now apply IH).
    cbn [oprel] in *. rewrite (lt_rel _ _ _ _ Hb Hr). destruct (Rltb y x); now apply IH.
  Qed.
  Lemma axis_rel nf X X' : Rows X X' -> orel eq (find_partition_axis dlt dsub dabs nf X) (find_partition_axis Rltb (rsub rnd) Rabs nf X').
  Proof.
    intros H. unfold find_partition_axis. eapply orel_bind with (R := Forall2 (Forall2 P)); [apply orel_mapM_same; intros; now apply col_of_rel|].
    intros cs cs' Hc. assert (Hr : Forall2 (oprel D) (map (col_range dlt dsub dabs) cs) (map (col_range Rltb (rsub rnd) Rabs) cs')).
    { induction Hc; cbn [map]; constructor; auto using col_range_rel. }
    destruct Hr; constructor; [reflexivity|]. now apply widest_rel.
  Qed.
  Lemma argsort_rel c c' : Forall2 D c c' -> argsort_col dlt c = argsort_col Rltb c'.
  Proof.
    intros H. unfold argsort_col. rewrite <- (F2_len _ _ _ H). destruct (length (lin_spaced_0_n (length c)) <=? 1)%nat; [reflexivity|].
    destruct (forallb _ _); [|reflexivity]. f_equal. apply isort_ext. intros i j _ _. unfold pos_lt_by.
    pose proof (F2_nth _ _ _ i H) as Hi. pose proof (F2_nth _ _ _ j H) as Hj.
    destruct (nth_error c i), (nth_error c' i); try contradiction; [|reflexivity]. destruct (nth_error c j), (nth_error c' j); try contradiction; [|reflexivity]. auto.
  Qed.
  Lemma F2_PD c c' : Forall2 P c c' -> Forall2 D c c'.
  Proof. induction 1; constructor; auto. Qed.
  Lemma orel_same {A} (o : outcome A) : orel eq o o.
  Proof. destruct o; constructor. reflexivity. Qed.
  Definition cut_rel (a : nat * double * list (list double) * list nat) (b : nat * R * list (list R) * list nat) : Prop :=
    fst (fst (fst a)) = fst (fst (fst b)) /\ P (snd (fst (fst a))) (snd (fst (fst b))) /\ Rows (snd (fst a)) (snd (fst b)) /\ snd a = snd b.
  Lemma split_rows_rel nf X X' idx : Rows X X' -> orel cut_rel (split_rows dlt dsub dabs nf X idx) (split_rows Rltb (rsub rnd) Rabs nf X' idx).
  Proof.
    intros H. unfold split_rows. eapply orel_bind; [apply axis_rel, H|]. intros ax ? <-. eapply orel_bind; [apply col_of_rel, H|]. intros c c' Hc.
    rewrite (argsort_rel _ _ (F2_PD _ _ Hc)). eapply orel_bind; [apply orel_same|]. intros o ? <-. eapply orel_bind; [apply select_rel, H|]. intros d d' Hd.
    eapply orel_bind; [apply orel_same|]. intros i ? <-. rewrite <- (F2_len _ _ _ H). eapply orel_bind; [apply (orel_vget (Forall2 P)), Hd|]. intros r r' Hr.
    eapply orel_bind; [apply (orel_vget P), Hr|]. intros v v' Hv. constructor. repeat split; auto.
  Qed.

  Definition rect_rel (a : list double * list double) (b : list R * list R) : Prop := Forall2 P (fst a) (fst b) /\ Forall2 P (snd a) (snd b).
  Definition leaf_rel (a : list (list double) * list nat) (b : list (list R) * list nat) : Prop := Rows (fst a) (fst b) /\ snd a = snd b.
  Record node_rel (n : node double) (n' : node R) : Prop := {
    nr_left : nd_left n = nd_left n'; nr_right : nd_right n = nd_right n'; nr_leaf : oprel leaf_rel (nd_leaf n) (nd_leaf n');
    nr_lrect : oprel rect_rel (nd_lrect n) (nd_lrect n'); nr_rrect : oprel rect_rel (nd_rrect n) (nd_rrect n') }.
  Record item_rel (a : item double) (b : item R) : Prop := {
    ir_left : it_left a = it_left b; ir_parent : it_parent a = it_parent b; ir_data : Rows (it_data a) (it_data b); ir_idx : it_idx a = it_idx b }.
  Lemma set_child_rel n n' b p : node_rel n n' -> node_rel (set_child n b p) (set_child n' b p).
  Proof. intros [H1 H2 H3 H4 H5]. unfold set_child. destruct b; constructor; cbn; auto. Qed.
  Lemma two_items_rel p m X X' idx : Rows X X' -> Forall2 item_rel (two_items p m X idx) (two_items p m X' idx).
  Proof. intros H. unfold two_items. repeat constructor; cbn; [now apply F2_skipn|now apply F2_firstn]. Qed.
  Lemma build_loop_rel leaf nf : forall fuel stk stk' t t', Forall2 item_rel stk stk' -> Forall2 node_rel t t' ->
    orel (Forall2 node_rel) (build_loop dlt dsub dabs fuel leaf nf stk t) (build_loop Rltb (rsub rnd) Rabs fuel leaf nf stk' t').
  Proof.
    induction fuel as [|fuel IH]; intros stk stk' t t' Hs Ht; cbn [build_loop]; [constructor|]. destruct Hs as [|it it' stk stk' Hi Hs]; [now constructor|].
    destruct Hi as [Hl Hp Hd Hx]. rewrite <- Hp, <- (F2_len _ _ _ Ht), <- (F2_len _ _ _ Hd), <- Hl, <- Hx.
    pose proof (F2_nth _ _ _ (it_parent it) Ht) as Hn. destruct (nth_error t (it_parent it)) as [n|], (nth_error t' (it_parent it)) as [n'|]; try contradiction; [|constructor].
    eapply orel_bind; [apply orel_vset; [exact Ht|now apply set_child_rel]|]. intros t1 t1' Ht1. destruct (length (it_data it) <=? leaf)%nat.
    { apply IH; [exact Hs|]. apply F2_app; [exact Ht1|]. constructor; [|constructor]. constructor; cbn; auto. split; auto. }
    eapply orel_bind; [apply split_rows_rel, Hd|]. intros [[[ax v] d] i] [[[ax' v'] d'] i'] (H1 & H2 & H3 & H4). cbn [fst snd] in *. subst ax' i'.
    assert (Hb : oprel rect_rel (if it_left it then nd_lrect n else nd_rrect n) (if it_left it then nd_lrect n' else nd_rrect n')).
    { destruct (it_left it); apply Hn. }
    destruct (if it_left it then nd_lrect n else nd_rrect n) as [[lo hi]|], (if it_left it then nd_lrect n' else nd_rrect n') as [[lo' hi']|]; try contradiction; [|constructor].
    destruct Hb as [Hlo Hhi]. cbn [fst snd] in *. eapply orel_bind; [apply orel_vset; eassumption|]. intros h2 h2' Hh2. eapply orel_bind; [apply orel_vset; eassumption|]. intros l2 l2' Hl2.
    apply IH; [apply F2_app; [now apply two_items_rel|exact Hs]|]. apply F2_app; [exact Ht1|]. constructor; [|constructor]. constructor; cbn; auto; split; auto.
  Qed.
  Lemma bounds_rel f g nf X X' : (forall c c', Forall2 P c c' -> oprel P (f c) (g c')) -> Rows X X' -> orel (Forall2 P) (bounds f nf X) (bounds g nf X').
  Proof.
    intros Hf H. unfold bounds. apply orel_mapM_same. intros j _. eapply orel_bind; [apply col_of_rel, H|]. intros c c' Hc. specialize (Hf _ _ Hc).
    destruct (f c), (g c'); try contradiction; now constructor.
  Qed.
  Theorem build_rel leaf nf X X' : Rows X X' -> orel (Forall2 node_rel) (dbuild leaf nf X) (build_tree Rltb (rsub rnd) Rabs leaf nf X').
  Proof.
    intros H. unfold dbuild, build_tree. pose proof (F2_len _ _ _ H) as HL. pose proof H as H'. destruct H' as [|r r' Y Y' _ _]; [constructor|].
    eapply orel_bind; [apply bounds_rel; [apply col_min_rel|exact H]|]. intros lo lo' Hlo. eapply orel_bind; [apply bounds_rel; [apply col_max_rel|exact H]|]. intros hi hi' Hhi.
    rewrite <- HL. eapply orel_bind; [apply split_rows_rel, H|]. intros [[[ax v] d] i] [[[ax' v'] d'] i'] (H1 & H2 & H3 & H4). cbn [fst snd] in *. subst ax' i'.
    eapply orel_bind; [apply orel_vset; eassumption|]. intros h2 h2' Hh2. eapply orel_bind; [apply orel_vset; eassumption|]. intros l2 l2' Hl2.
    apply build_loop_rel; [now apply two_items_rel|]. constructor; [|constructor]. constructor; cbn; auto; split; auto.
  Qed.

  (** ** Queries *)
  Variables (nf : nat) (dn : list double -> double) (rn : list R -> R).
  Hypothesis norm_rel : forall v w, length v = nf -> Forall2 S v w -> D (dn v) (rn w).
  Variable pick : nat -> nat.
  Definition key_rel (a : double) (o : option R) : Prop := match o with Some x => D a x | None => a = inf end.
  Definition entry_rel (a : double * nat) (b : option R * nat) : Prop := key_rel (fst a) (fst b) /\ snd a = snd b.
  Lemma key_lt a b o p : key_rel a o -> key_rel b p -> dlt a b = klt Rltb o p.
  Proof.
    intros H1 H2. destruct o as [x|], p as [y|]; cbn [key_rel klt] in *; subst.
    - auto.
    - specialize (D_fin _ _ H1). now destruct a as [[]|[]| |[] ? ? ?].
    - now destruct b as [[]|[]| |[] ? ? ?].
    - reflexivity.
  Qed.
  Lemma diff_rel x x' y y' : Forall2 P x x' -> Forall2 P y y' -> Forall2 S (KDTree_Model.diff dsub x y) (KDTree_Model.diff (rsub rnd) x' y').
  Proof.
    intros H. revert y y'. unfold KDTree_Model.diff. induction H as [|a b x x' Ha H IH]; intros y y' Hy; cbn [combine map]; [constructor|].
    destruct Hy as [|c d y y' Hc Hy]; cbn [combine map fst snd]; constructor; auto.
  Qed.
  Lemma diff_len {A} (f : A -> A -> A) x y : length x = nf -> length y = nf -> length (KDTree_Model.diff f x y) = nf.
  Proof. intros H1 H2. unfold KDTree_Model.diff. rewrite map_length, combine_length. lia. Qed.
  Lemma clamp1_rel q lo hi q' lo' hi' : P q q' -> P lo lo' -> P hi hi' -> P (clamp1 dlt q lo hi) (clamp1 Rltb q' lo' hi').
  Proof.
    intros H1 H2 H3. unfold clamp1. rewrite (Plt _ _ _ _ H3 H1). destruct (Rltb hi' q').
    - rewrite (Plt _ _ _ _ H3 H2). now destruct (Rltb hi' lo').
    - rewrite (Plt _ _ _ _ H1 H2). now destruct (Rltb q' lo').
  Qed.
  Lemma clamp_rel q q' : Forall2 P q q' -> forall lo lo' hi hi', Forall2 P lo lo' -> Forall2 P hi hi' -> Forall2 P (clamp dlt q lo hi) (clamp Rltb q' lo' hi').
  Proof.
    induction 1 as [|a b q q' Ha H IH]; intros lo lo' hi hi' Hl Hh; cbn [clamp]; [constructor|]. destruct Hl; [constructor|]. destruct Hh; [constructor|].
    constructor; [now apply clamp1_rel|now apply IH].
  Qed.
  Lemma clamp_len {A} (lt : A -> A -> bool) : forall q lo hi, length q = length lo -> length q = length hi -> length (clamp lt q lo hi) = length q.
  Proof. induction q as [|a q IH]; intros [|l lo] [|h hi] H1 H2; try discriminate; cbn [clamp length] in *; [reflexivity|]. f_equal. apply IH; lia. Qed.
  Lemma check_rel r r' q q' a o : length q = nf -> Forall2 P q q' -> rect_rel r r' -> key_rel a o ->
    orel eq (dcheck dn r q a) (check_intersection Rltb (rsub rnd) rn r' q' o).
  Proof.
    intros Hn Hq [H1 H2] Hk. unfold dcheck, check_intersection. rewrite <- (F2_len _ _ _ Hq), <- (F2_len _ _ _ H1), <- (F2_len _ _ _ H2).
    destruct ((length q =? length (fst r)) && (length q =? length (snd r)))%bool eqn:E; [|constructor]. apply andb_prop in E as [E1 E2]. apply Nat.eqb_eq in E1, E2.
    constructor. apply key_lt; [|exact Hk]. cbn [key_rel]. unfold distance. apply norm_rel.
    - apply diff_len; [|exact Hn]. now rewrite clamp_len.
    - apply diff_rel; [now apply clamp_rel|exact Hq].
  Qed.
  Lemma leaf_distances_rel X X' q q' : length q = nf -> Forall2 P q q' -> Rows X X' -> orel (Forall2 D) (leaf_distances dsub dn X q) (leaf_distances (rsub rnd) rn X' q').
  Proof.
    intros Hn Hq H. unfold leaf_distances. eapply orel_mapM; [exact H|]. intros r r' Hr. rewrite <- (F2_len _ _ _ Hr), <- (F2_len _ _ _ Hq).
    destruct (length r =? length q) eqn:E; [|constructor]. apply Nat.eqb_eq in E. constructor. unfold distance. apply norm_rel; [apply diff_len; lia|now apply diff_rel].
  Qed.
  Lemma no_nan l l' : Forall2 D l l' -> existsb is_nan l = false.
  Proof. induction 1 as [|a b l l' H _ IH]; [reflexivity|]. cbn [existsb]. rewrite IH. specialize (D_fin _ _ H). now destruct a. Qed.
  Lemma compute_rel X X' idx q q' k : length q = nf -> Forall2 P q q' -> Rows X X' ->
    orel (Forall2 entry_rel) (dcompute_distance dn q X idx k) (compute_distance Rltb (rsub rnd) rn q' X' idx k).
  Proof.
    intros Hn Hq H. unfold dcompute_distance, compute_distance. eapply orel_bind; [now apply leaf_distances_rel|]. intros l l' Hl. rewrite (no_nan _ _ Hl).
    rewrite (argsort_rel _ _ Hl). eapply orel_bind; [apply orel_same|]. intros o ? <-. rewrite <- (F2_len _ _ _ H). apply orel_mapM_same. intros i _.
    eapply orel_bind; [apply (orel_vget D), Hl|]. intros d d' Hd. eapply orel_bind; [apply orel_same|]. intros j ? <-. constructor. now split.
  Qed.
  Notation Heap := (Forall2 entry_rel).
  Lemma positions_rel h h' : Heap h h' -> dmax_positions h = max_positions Rltb h'.
  Proof.
    intros H. unfold dmax_positions, max_positions. rewrite <- (F2_len _ _ _ H). apply filter_ext. intros i. pose proof (F2_nth _ _ _ i H) as Hi.
    destruct (nth_error h i) as [e|], (nth_error h' i) as [e'|]; try contradiction; [|reflexivity]. unfold dis_max, is_max. clear -H Hi lt_rel D_fin.
    induction H as [|a b h h' Ha H IH]; [reflexivity|]. cbn [forallb]. rewrite IH. f_equal. f_equal. apply key_lt; [apply Hi|apply Ha].
  Qed.
  Lemma pop_rel n h h' : Heap h h' -> orel (fun a b => entry_rel (fst a) (fst b) /\ Heap (snd a) (snd b)) (dpop pick n h) (pop Rltb pick n h').
  Proof.
    intros H. unfold dpop, pop. rewrite (positions_rel _ _ H). eapply orel_bind; [apply orel_same|]. intros i ? <-. eapply orel_bind; [apply (orel_vget entry_rel), H|].
    intros e e' He. constructor. split; [exact He|]. cbn [snd]. apply F2_app; [now apply F2_firstn|now apply (F2_skipn entry_rel (Datatypes.S i))].
  Qed.
  Lemma top_rel h h' : Heap h h' -> orel key_rel (dtop_key h) (top_key Rltb h').
  Proof.
    intros H. destruct H as [|e e' h h' He H]; cbn [dtop_key top_key]; constructor. assert (G : key_rel (fst e) (fst e')) by apply He. clear He. revert G. generalize (fst e), (fst e').
    induction H as [|a b h h' Ha H IH]; intros m m' Hm; cbn [fold_left]; [exact Hm|]. apply IH. rewrite (key_lt _ _ _ _ Hm (proj1 Ha)). destruct (klt Rltb m' (fst b)); [apply Ha|exact Hm].
  Qed.
  Definition state_rel (s : list (double * nat) * nat) (s' : list (option R * nat) * nat) : Prop := Heap (fst s) (fst s') /\ snd s = snd s'.
  Lemma push_rel k s s' e e' : state_rel s s' -> entry_rel e e' -> orel state_rel (dpush_nn pick k s e) (push_nn Rltb pick k s' e').
  Proof.
    destruct s as [h n], s' as [h' n']. intros [H1 H2] He. cbn [fst snd] in *. subst n'. unfold dpush_nn, push_nn. assert (G : Heap (h ++ [e]) (h' ++ [e'])) by (apply F2_app; auto).
    rewrite <- (F2_len _ _ _ G). destruct (k <? length (h ++ [e]))%nat; [|now constructor]. eapply orel_bind; [now apply pop_rel|]. intros [a b] [a' b'] [_ Hb]. constructor. now split.
  Qed.
  Lemma child_rel t t' p : Forall2 node_rel t t' -> orel node_rel (child t p) (child t' p).
  Proof. intros H. destruct p as [i|]; cbn [child]; [|constructor]. pose proof (F2_nth _ _ _ i H). destruct (nth_error t i), (nth_error t' i); try contradiction; now constructor. Qed.
  Lemma children_rel t t' n n' q q' a o stk stk' : length q = nf -> Forall2 P q q' -> Forall2 node_rel t t' -> node_rel n n' -> key_rel a o -> Forall2 node_rel stk stk' ->
    orel (Forall2 node_rel) (dpush_children dn t n q a stk) (push_children Rltb (rsub rnd) rn t' n' q' o stk').
  Proof.
    intros Hn Hq Ht [H1 H2 H3 H4 H5] Hk Hs. unfold dpush_children, push_children. rewrite <- H1, <- H2.
    destruct (nd_lrect n) as [lr|], (nd_lrect n') as [lr'|]; try contradiction; [|constructor]. destruct (nd_rrect n) as [rr|], (nd_rrect n') as [rr'|]; try contradiction; [|constructor].
    eapply orel_bind; [eapply check_rel; eassumption|]. intros bl ? <-. eapply orel_bind with (R := Forall2 node_rel).
    { destruct bl; [|now constructor]. eapply orel_bind; [apply child_rel, Ht|]. intros. constructor. now constructor. }
    intros s1 s1' Hs1. eapply orel_bind; [eapply check_rel; eassumption|]. intros br ? <-. destruct br; [|now constructor].
    eapply orel_bind; [apply child_rel, Ht|]. intros. constructor. now constructor.
  Qed.
  Lemma loop_rel t t' q q' k : length q = nf -> Forall2 P q q' -> Forall2 node_rel t t' -> forall fuel stk stk' s s', Forall2 node_rel stk stk' -> state_rel s s' ->
    orel state_rel (dknn_loop dn pick fuel t q k stk s) (knn_loop Rltb (rsub rnd) rn pick fuel t' q' k stk' s').
  Proof.
    intros Hn Hq Ht. induction fuel as [|fuel IH]; intros stk stk' s s' Hs Hst; cbn [dknn_loop knn_loop]; [constructor|]. destruct Hs as [|n n' stk stk' Hnd Hs]; [now constructor|].
    pose proof (nr_leaf _ _ Hnd) as Hl. destruct (nd_leaf n) as [[d i]|], (nd_leaf n') as [[d' i']|]; try contradiction.
    - destruct Hl as [Hd Hi]. cbn [fst snd] in *. subst i'. eapply orel_bind; [now apply compute_rel|]. intros l l' Hl. eapply orel_bind with (R := state_rel); [|intros; now apply IH].
      eapply orel_foldM; [exact Hl| |exact Hst]. intros. now apply push_rel.
    - eapply orel_bind; [apply top_rel, Hst|]. intros r r' Hr. eapply orel_bind; [now apply children_rel|]. intros. now apply IH.
  Qed.
  Lemma drain_rel : forall k s s' acc acc', state_rel s s' -> Heap acc acc' -> orel Heap (ddrain pick k s acc) (drain Rltb pick k s' acc').
  Proof.
    induction k as [|k IH]; intros [h n] [h' n'] acc acc' [H1 H2] Ha; cbn [ddrain drain]; [now constructor|]. cbn [fst snd] in *. subst n'. eapply orel_bind; [now apply pop_rel|].
    intros [a b] [a' b'] [Hb1 Hb2]. apply IH; [now split|now constructor].
  Qed.
  Theorem query_rel t t' qs qs' k : Forall2 node_rel t t' -> Forall2 (fun q q' => length q = nf /\ Forall2 P q q') qs qs' ->
    orel (Forall2 Heap) (dquery dn pick t qs k) (query Rltb (rsub rnd) rn pick t' qs' k).
  Proof.
    intros Ht Hq. unfold dquery, query. eapply orel_mapM; [exact Hq|]. intros q q' [Hn Hqq]. unfold dquery_single, query_single. rewrite <- (F2_len _ _ _ Ht).
    pose proof (F2_nth _ _ _ 0 Ht) as H0. destruct (nth_error t 0) as [n|], (nth_error t' 0) as [n'|]; try contradiction; [|constructor].
    eapply orel_bind; [apply loop_rel; auto|].
    - split; [|reflexivity]. cbn [fst]. induction k; cbn [repeat]; constructor; auto. now split.
    - intros s s' Hs. now apply drain_rel.
  Qed.

  (** ** Radius queries *)
  Definition found_rel (a : double * nat) (b : R * nat) : Prop := D (fst a) (fst b) /\ snd a = snd b.
  Lemma gcheck_rel r r' q q' a o : length q = nf -> Forall2 P q q' -> rect_rel r r' -> D a o ->
    orel eq (check_intersection dlt dsub dn r q (Some a)) (check_intersection Rltb (rsub rnd) rn r' q' (Some o)).
  Proof. intros. apply (check_rel r r' q q' a (Some o)); assumption. Qed.
  Lemma gchildren_rel t t' n n' q q' a o stk stk' : length q = nf -> Forall2 P q q' -> Forall2 node_rel t t' -> node_rel n n' -> D a o -> Forall2 node_rel stk stk' ->
    orel (Forall2 node_rel) (push_children dlt dsub dn t n q (Some a) stk) (push_children Rltb (rsub rnd) rn t' n' q' (Some o) stk').
  Proof. intros. apply (children_rel t t' n n' q q' a (Some o)); assumption. Qed.
  Lemma within_rel X X' idx q q' a o : length q = nf -> Forall2 P q q' -> Rows X X' -> D a o ->
    orel (Forall2 found_rel) (leaf_within dlt dsub dn q X idx a) (leaf_within Rltb (rsub rnd) rn q' X' idx o).
  Proof.
    intros Hn Hq H Ha. unfold leaf_within. eapply orel_bind; [now apply leaf_distances_rel|]. intros l l' Hl. rewrite <- (F2_len _ _ _ Hl).
    assert (E : filter (fun i => match nth_error l i with Some d => negb (dlt a d) | None => false end) (seq 0 (length l)) =
      filter (fun i => match nth_error l' i with Some d => negb (Rltb o d) | None => false end) (seq 0 (length l))).
    { apply filter_ext. intros i. pose proof (F2_nth _ _ _ i Hl) as Hi. destruct (nth_error l i), (nth_error l' i); try contradiction; [|reflexivity]. now rewrite (lt_rel _ _ _ _ Ha Hi). }
    rewrite E. apply orel_mapM_same. intros i _. eapply orel_bind; [apply (orel_vget D), Hl|]. intros d d' Hd. eapply orel_bind; [apply orel_same|]. intros j ? <-. constructor. now split.
  Qed.
  Lemma radius_loop_rel t t' q q' a o : length q = nf -> Forall2 P q q' -> Forall2 node_rel t t' -> D a o -> forall fuel stk stk' acc acc', Forall2 node_rel stk stk' -> Forall2 found_rel acc acc' ->
    orel (Forall2 found_rel) (radius_loop dlt dsub dn fuel t q a stk acc) (radius_loop Rltb (rsub rnd) rn fuel t' q' o stk' acc').
  Proof.
    intros Hn Hq Ht Ha. induction fuel as [|fuel IH]; intros stk stk' acc acc' Hs Hacc; cbn [radius_loop]; [constructor|]. destruct Hs as [|n n' stk stk' Hnd Hs]; [now constructor|].
    pose proof (nr_leaf _ _ Hnd) as Hl. destruct (nd_leaf n) as [[d i]|], (nd_leaf n') as [[d' i']|]; try contradiction.
    - destruct Hl as [Hd Hi]. cbn [fst snd] in *. subst i'. eapply orel_bind; [now apply within_rel|]. intros l l' Hl. apply IH; [exact Hs|now apply F2_app].
    - eapply orel_bind; [now apply gchildren_rel|]. intros. now apply IH.
  Qed.
  Theorem radius_rel t t' q q' a o : length q = nf -> Forall2 P q q' -> Forall2 node_rel t t' -> D a o ->
    orel (Forall2 found_rel) (query_radius_single dlt dsub dn t q a) (query_radius_single Rltb (rsub rnd) rn t' q' o).
  Proof.
    intros Hn Hq Ht Ha. unfold query_radius_single. rewrite <- (F2_len _ _ _ Ht). pose proof (F2_nth _ _ _ 0 Ht) as H0.
    destruct (nth_error t 0), (nth_error t' 0); try contradiction; [|constructor]. apply radius_loop_rel; auto.
  Qed.
End Related.

(** * Operations that do not overflow *)
Lemma b64_le x c e : (0 <= c < 2 ^ 53)%Z -> (-1074 <= e)%Z -> Rabs x <= IZR c * bpow radix2 e -> Rabs (binary64 x) <= IZR c * bpow radix2 e.
Proof.
  intros Hc He H. unfold binary64. apply abs_round_le_generic; [apply FLT_exp_valid; reflexivity|apply valid_rnd_N| |exact H].
  apply generic_format_FLT. apply FLT_spec with (Float radix2 c e); [reflexivity| |exact He]. cbn [Fnum]. rewrite Z.abs_eq; [exact (proj2 Hc)|tauto].
Qed.
Lemma no_overflow x c e : (0 <= c < 2 ^ 53)%Z -> (-1074 <= e <= 971)%Z -> Rabs x <= IZR c * bpow radix2 e -> Rlt_bool (Rabs (binary64 x)) (bpow radix2 1024) = true.
Proof.
  intros Hc He H. apply Rlt_bool_true. apply (b64_le x c e Hc (proj1 He)) in H. eapply Rle_lt_trans; [exact H|].
  replace 1024%Z with (53 + 971)%Z by reflexivity. rewrite bpow_plus. apply Rlt_le_trans with (bpow radix2 53 * bpow radix2 e).
  - apply Rmult_lt_compat_r; [apply bpow_gt_0|]. replace (bpow radix2 53) with (IZR (2 ^ 53)) by reflexivity. apply IZR_lt. tauto.
  - apply Rmult_le_compat_l; [apply bpow_ge_0|]. apply bpow_le. tauto.
Qed.
(** [a] is finite, stands for [x], and is at most c * 2^e. *)
Definition near (c e : Z) (a : double) (x : R) : Prop := finite a /\ B2R a = x /\ Rabs x <= IZR c * bpow radix2 e.
Lemma dadd_near c d e a b x y : (0 <= c)%Z -> (0 <= d)%Z -> (c + d < 2 ^ 53)%Z -> (-1074 <= e <= 971)%Z -> near c e a x -> near d e b y -> near (c + d) e (dadd a b) (binary64 (x + y)).
Proof.
  intros Hc Hd Hcd He (Fa & Ea & Ha) (Fb & Eb & Hb). assert (H : Rabs (x + y) <= IZR (c + d) * bpow radix2 e).
  { rewrite plus_IZR, Rmult_plus_distr_r. eapply Rle_trans; [apply Rabs_triang|lra]. }
  assert (Hr : (0 <= c + d < 2 ^ 53)%Z) by lia.
  pose proof (Bplus_correct 53 1024 prec_pos prec_small mode_NE a b Fa Fb) as G. rewrite Ea, Eb in G. pose proof (no_overflow _ _ _ Hr He H) as N. unfold binary64 in N.
  change (SpecFloat.fexp 53 1024) with (FLT_exp (-1074) 53) in G. change (round_mode mode_NE) with ZnearestE in G. rewrite N in G. destruct G as (G1 & G2 & _).
  split; [exact G2|]. split; [exact G1|]. apply b64_le; [exact Hr|tauto|exact H].
Qed.
Lemma dsub_near c d e a b x y : (0 <= c)%Z -> (0 <= d)%Z -> (c + d < 2 ^ 53)%Z -> (-1074 <= e <= 971)%Z -> near c e a x -> near d e b y -> near (c + d) e (dsub a b) (binary64 (x - y)).
Proof.
  intros Hc Hd Hcd He (Fa & Ea & Ha) (Fb & Eb & Hb). assert (H : Rabs (x - y) <= IZR (c + d) * bpow radix2 e).
  { rewrite plus_IZR, Rmult_plus_distr_r. unfold Rminus. eapply Rle_trans; [apply Rabs_triang|]. rewrite Rabs_Ropp. lra. }
  assert (Hr : (0 <= c + d < 2 ^ 53)%Z) by lia.
  pose proof (Bminus_correct 53 1024 prec_pos prec_small mode_NE a b Fa Fb) as G. rewrite Ea, Eb in G. pose proof (no_overflow _ _ _ Hr He H) as N. unfold binary64 in N.
  change (SpecFloat.fexp 53 1024) with (FLT_exp (-1074) 53) in G. change (round_mode mode_NE) with ZnearestE in G. rewrite N in G. destruct G as (G1 & G2 & _).
  split; [exact G2|]. split; [exact G1|]. apply b64_le; [exact Hr|tauto|exact H].
Qed.
Lemma dmul_near c d e f a b x y : (0 <= c)%Z -> (0 <= d)%Z -> (c * d < 2 ^ 53)%Z -> (-1074 <= e + f <= 971)%Z -> near c e a x -> near d f b y -> near (c * d) (e + f) (dmul a b) (binary64 (x * y)).
Proof.
  intros Hc Hd Hcd He (Fa & Ea & Ha) (Fb & Eb & Hb). assert (H : Rabs (x * y) <= IZR (c * d) * bpow radix2 (e + f)).
  { rewrite mult_IZR, bpow_plus, Rabs_mult. replace (IZR c * IZR d * (bpow radix2 e * bpow radix2 f)) with ((IZR c * bpow radix2 e) * (IZR d * bpow radix2 f)) by ring.
    apply Rmult_le_compat; auto using Rabs_pos. }
  assert (Hr : (0 <= c * d < 2 ^ 53)%Z) by nia.
  pose proof (Bmult_correct 53 1024 prec_pos prec_small mode_NE a b) as G. rewrite Ea, Eb in G. pose proof (no_overflow _ _ _ Hr He H) as N. unfold binary64 in N.
  change (SpecFloat.fexp 53 1024) with (FLT_exp (-1074) 53) in G. change (round_mode mode_NE) with ZnearestE in G. rewrite N in G. destruct G as (G1 & G2 & _).
  split; [|split; [exact G1|apply b64_le; [exact Hr|tauto|exact H]]]. unfold finite. unfold dmul. rewrite G2. unfold finite in Fa, Fb. now rewrite Fa, Fb.
Qed.
Lemma dabs_near c e a x : near c e a x -> near c e (dabs a) (Rabs x).
Proof. intros (F & E & H). split; [unfold finite, dabs; now rewrite is_finite_Babs|]. split; [unfold dabs; now rewrite B2R_Babs, E|now rewrite Rabs_Rabsolu]. Qed.
Lemma dsqrt_near a x : finite a -> B2R a = x -> 0 <= x -> finite (dsqrt a) /\ B2R (dsqrt a) = binary64 (sqrt x).
Proof.
  intros F E H. destruct (Bsqrt_correct 53 1024 prec_pos prec_small mode_NE a) as (G1 & G2 & _). rewrite E in G1. split; [|exact G1]. unfold finite, dsqrt. rewrite G2.
  destruct a as [s|s| |s m e B]; try discriminate; [reflexivity|]. destruct s; [|reflexivity]. exfalso. cbn [B2R] in E.
  assert (F2R (Float radix2 (cond_Zopp true (Zpos m)) e) < 0) by (now apply F2R_lt_0). lra.
Qed.
Lemma dlt_near a b x y : finite a /\ B2R a = x -> finite b /\ B2R b = y -> dlt a b = Rltb x y.
Proof. intros (Fa & <-) (Fb & <-). unfold dlt. rewrite Bltb_correct by assumption. unfold Rltb. destruct (Rlt_dec (B2R a) (B2R b)); [now apply Rlt_bool_true|apply Rlt_bool_false; lra]. Qed.

(** Sums of at most c terms *)
Lemma dadd_up_near e v w : (-1074 <= e <= 971)%Z -> Forall2 (near 1 e) v w -> forall s, (Z.of_nat (length (entries_of s)) < 2 ^ 53)%Z ->
  near (Z.of_nat (length (entries_of s))) e (dadd_up s v) (add_up binary64 s w).
Proof.
  intros He H. induction s as [i|l IHl r IHr]; intros Hs.
  - cbn [entries_of dadd_up add_up length Z.of_nat]. clear Hs. assert (Z0 : near 1 e zero 0).
    { split; [reflexivity|]. split; [reflexivity|]. rewrite Rabs_R0, Rmult_1_l. apply bpow_ge_0. }
    revert i. induction H as [|a x v w Ha H IH]; intros [|i]; cbn [nth]; auto.
  - cbn [entries_of dadd_up add_up] in *. rewrite app_length in *. rewrite Nat2Z.inj_add in *. apply dadd_near; try lia; try tauto; [apply IHl|apply IHr]; lia.
Qed.
Lemma dsum_near ord e v w : fair ord -> (-1074 <= e <= 971)%Z -> v <> [] -> (Z.of_nat (length v) < 2 ^ 53)%Z -> Forall2 (near 1 e) v w ->
  near (Z.of_nat (length v)) e (dsum ord v) (add_up binary64 (ord (length v)) w).
Proof.
  intros HF He Hne Hl H. unfold dsum. destruct v as [|a v]; [congruence|]. set (u := a :: v) in *. assert (E : length (entries_of (ord (length u))) = length u).
  { rewrite (Permutation_length (HF (length u) ltac:(subst u; cbn; lia))). apply seq_length. }
  pose proof (dadd_up_near e u w He H (ord (length u))) as G. rewrite E in G. now apply G.
Qed.
Lemma add_up_pos s w : Forall (fun x => 0 <= x) w -> 0 <= add_up binary64 s w.
Proof.
  intros H. induction s as [i|l IHl r IHr]; cbn [add_up].
  - destruct (nth_in_or_default i w 0) as [Hi|Hi]; [rewrite Forall_forall in H; now apply H|rewrite Hi; lra].
  - apply (rnd_pos binary64 binary64_rounding). lra.
Qed.

Definition Pr := near 1 480.
Definition Sr := near 2 480.
Definition Dr (a : double) (x : R) : Prop := finite a /\ B2R a = x.
Lemma two_pow (e : Z) : IZR 2 * bpow radix2 e = IZR 1 * bpow radix2 (e + 1).
Proof. rewrite bpow_plus. change (bpow radix2 1) with 2. lra. Qed.
Lemma Sr1 a x : Sr a x -> near 1 481 a x.
Proof. intros (H1 & H2 & H3). split; [exact H1|]. split; [exact H2|]. rewrite (two_pow 480) in H3. exact H3. Qed.
Lemma norm_near ord m nf v w : fair ord -> (1 <= nf)%nat -> (Z.of_nat nf < 2 ^ 53)%Z -> length v = nf -> Forall2 Sr v w -> Dr (dmetric_norm ord m v) (computed_norm binary64 (ord nf) m w).
Proof.
  intros HF H1 H2 HL H. assert (Hne : v <> []) by (intros ->; cbn in HL; lia). assert (Hm : forall f : double -> double, map f v <> []) by (intros f; destruct v; [congruence|discriminate]).
  destruct m; cbn [dmetric_norm computed_norm].
  - assert (G : Forall2 (near 1 481) (map dabs v) (map Rabs w)).
    { clear -H. induction H as [|a x v w Ha H IH]; cbn [map]; constructor; [|exact IH]. apply dabs_near, Sr1, Ha. }
    pose proof (dsum_near ord 481 (map dabs v) _ HF ltac:(lia) (Hm _) ltac:(rewrite map_length; lia) G) as N. rewrite map_length, HL in N. split; apply N.
  - assert (G : Forall2 (near 1 962) (map (fun x => dmul x x) v) (map (fun x => binary64 (x * x)) w)).
    { clear -H. induction H as [|a x v w Ha H IH]; cbn [map]; constructor; [|exact IH]. apply Sr1 in Ha. apply (dmul_near 1 1 481 481 a a x x); try lia; auto. }
    pose proof (dsum_near ord 962 (map (fun x => dmul x x) v) _ HF ltac:(lia) (Hm _) ltac:(rewrite map_length; lia) G) as N. rewrite map_length, HL in N.
    apply dsqrt_near; [apply N|apply N|]. apply add_up_pos. apply Forall_forall. intros y Hy. apply in_map_iff in Hy as (x & <- & _). apply (rnd_pos binary64 binary64_rounding).
    apply Rle_0_sqr.
  - clear -H. induction H as [|a x v w Ha H IH]; cbn [map fold_right]; [split; reflexivity|]. destruct (dabs_near _ _ _ _ Ha) as (A1 & A2 & _).
    assert (A : Dr (dabs a) (Rabs x)) by (split; assumption). remember (fold_right dgreater zero (map dabs v)) as z. unfold dgreater. rewrite (dlt_near _ _ _ _ A IH). unfold Rltb.
    destruct (Rlt_dec (Rabs x) (fold_right Rmax 0 (map Rabs w))) as [L|L]; [rewrite Rmax_right by lra; exact IH|rewrite Rmax_left by lra; exact A].
Qed.
Lemma Pr_Dr a x : Pr a x -> Dr a x.
Proof. intros (H1 & H2 & _). now split. Qed.
Lemma Pr_sub a b x y : Pr a x -> Pr b y -> Sr (dsub a b) (rsub binary64 x y).
Proof. intros H1 H2. apply (dsub_near 1 1 480); try lia; assumption. Qed.
Lemma Sr_abs a x : Sr a x -> Dr (dabs a) (Rabs x).
Proof. intros H. apply dabs_near in H as (H1 & H2 & _). now split. Qed.
Lemma moderate_Pr a : moderate a -> Pr a (value a).
Proof. intros (H1 & H2). split; [exact H1|]. split; [reflexivity|]. rewrite Rmult_1_l. exact H2. Qed.
Lemma values_rel X : Forall (Forall moderate) X -> Forall2 (Forall2 Pr) X (values X).
Proof.
  assert (G : forall v, Forall moderate v -> Forall2 Pr v (map value v)) by (induction 1; cbn [map]; constructor; auto using moderate_Pr).
  intros H. unfold values. induction H; cbn [map]; constructor; auto.
Qed.

(** * Results *)
Section Results.
  Variables (ord : nat -> order) (m : metric) (nf : nat).
  Hypothesis HF : fair ord.
  Hypothesis Hn : (1 <= nf)%nat.
  Hypothesis Hn2 : (Z.of_nat nf < 2 ^ 53)%Z.
  Lemma table_matrix X : table nf X -> is_matrix nf (values X).
  Proof. intros H r Hr. unfold values in Hr. apply in_map_iff in Hr as (v & <- & Hv). rewrite map_length. unfold table in H. rewrite Forall_forall in H. now apply H. Qed.
  Theorem build_related leaf X : Forall (Forall moderate) X ->
    orel (Forall2 (node_rel Pr)) (dbuild leaf nf X) (build_tree Rltb (rsub binary64) Rabs leaf nf (values X)).
  Proof. intros H. apply (build_rel binary64 Pr Sr Dr dlt_near Pr_Dr Pr_sub Sr_abs). now apply values_rel. Qed.
  Theorem query_related pick t t' qs k : Forall2 (node_rel Pr) t t' -> table nf qs -> Forall (Forall moderate) qs ->
    orel (Forall2 (Forall2 (entry_rel Dr))) (dquery (dmetric_norm ord m) pick t qs k) (query Rltb (rsub binary64) (computed_norm binary64 (ord nf) m) pick t' (values qs) k).
  Proof.
    intros Ht Hq Hm. apply (query_rel binary64 Pr Sr Dr dlt_near Pr_Dr Pr_sub (fun a x H => proj1 H) nf); [intros; now apply norm_near|exact Ht|].
    pose proof (values_rel _ Hm) as V. unfold values in *. clear Hm. induction Hq as [|q qs Hq1 Hq IH]; cbn [map] in *; [constructor|]. inversion V; subst. constructor; [now split|now apply IH].
  Qed.
  Theorem radius_related t t' q a : Forall2 (node_rel Pr) t t' -> length q = nf -> Forall moderate q -> finite a ->
    orel (Forall2 (found_rel Dr)) (query_radius_single dlt dsub (dmetric_norm ord m) t q a) (query_radius_single Rltb (rsub binary64) (computed_norm binary64 (ord nf) m) t' (map value q) (value a)).
  Proof.
    intros Ht Hq Hm Ha. apply (radius_rel binary64 Pr Sr Dr dlt_near Pr_Dr Pr_sub (fun a x H => proj1 H) nf); [intros; now apply norm_near|exact Hq| |exact Ht|now split].
    clear -Hm. induction Hm; cbn [map]; constructor; auto using moderate_Pr.
  Qed.
  Lemma distance_related r q : length r = nf -> length q = nf -> Forall moderate r -> Forall moderate q ->
    Dr (ddistance ord m r q) (computed_dist binary64 (ord nf) m (map value r) (map value q)).
  Proof.
    intros H1 H2 M1 M2. unfold ddistance, computed_dist. apply norm_near; auto; [rewrite map_length, combine_length; lia|].
    apply (diff_rel binary64 Pr Sr Pr_sub); [clear -M1; induction M1|clear -M2; induction M2]; cbn [map]; constructor; auto using moderate_Pr.
  Qed.
  Lemma Dr_le a b x y : Dr a x -> Dr b y -> x <= y -> dle a b = true.
  Proof. intros (F1 & <-) (F2 & <-) H. unfold dle. rewrite Bleb_correct by assumption. now apply Rle_bool_true. Qed.
  Lemma Dr_eq a b x : Dr a x -> Dr b x -> deq a b = true.
  Proof. intros (F1 & <-) (F2 & E). unfold deq. rewrite Beqb_correct by assumption. now apply Req_bool_true. Qed.
  Lemma value_rows data i r : nth_error data i = Some r -> nth_error (values data) i = Some (map value r).
  Proof. intros H. unfold values. now rewrite nth_error_map, H. Qed.
  Lemma value_rows_inv data i r' : nth_error (values data) i = Some r' -> exists r, nth_error data i = Some r /\ r' = map value r.
  Proof. intros H. unfold values in H. rewrite nth_error_map in H. destruct (nth_error data i) as [r|]; [|discriminate]. injection H as <-. eauto. Qed.
  Lemma nearest_transfer data q k a l : table nf data -> Forall (Forall moderate) data -> length q = nf -> Forall moderate q ->
    Forall2 (entry_rel Dr) a (map (fun p => (Some (fst p), snd p)) l) -> nearest_by (computed_dist binary64 (ord nf) m) (values data) (map value q) k l ->
    dnearest (ddistance ord m) data q k a.
  Proof.
    intros HT HM Hq Mq H (N1 & N2 & N3 & N4 & N5). unfold table in HT. rewrite Forall_forall in HT, HM.
    assert (HR : forall i r, nth_error data i = Some r -> Dr (ddistance ord m r q) (computed_dist binary64 (ord nf) m (map value r) (map value q))).
    { intros i r Hr. apply nth_error_In in Hr. apply distance_related; auto. }
    assert (G : Forall2 (fun e p => Dr (fst e) (fst p) /\ snd e = snd p) a l).
    { clear -H. remember (map _ l) as l' eqn:E. revert l E. induction H as [|e e' a l' He H IH]; intros [|p l] E; try discriminate; constructor; cbn [map] in E; injection E as E1 E2; [|now apply IH].
      subst e'. exact He. }
    assert (Es : map snd a = map snd l) by (clear -G; induction G as [|e p a l [_ Hp] G IH]; cbn [map]; congruence).
    assert (Ef : Forall2 Dr (map fst a) (map fst l)) by (clear -G; induction G as [|e p a l [Hp _] G IH]; cbn [map]; constructor; auto).
    split; [rewrite <- N1; exact (F2_len _ _ _ G)|]. split; [now rewrite Es|]. split; [|split].
    - intros d i Hd. destruct (In_nth_error _ _ Hd) as (j & Hj). pose proof (F2_nth _ _ _ j G) as Gj. rewrite Hj in Gj. destruct (nth_error l j) as [[x i']|] eqn:El; [|contradiction].
      cbn [fst snd] in Gj. destruct Gj as [G1 <-]. apply nth_error_In in El. destruct (N3 _ _ El) as (r' & Hr' & ->). apply value_rows_inv in Hr' as (r & Hr & ->).
      exists r. split; [exact Hr|]. eapply Dr_eq; [exact G1|now apply (HR i)].
    - clear -N4 Ef. revert Ef. generalize (map fst a). induction N4 as [|x xs Hs IH Hx]; intros b Hb; inversion Hb as [|d x' ds xs' Hd Hds]; subst; constructor; [now apply IH|].
      clear -Hx Hd Hds. induction Hds as [|e y ds xs He Hds IH]; constructor; inversion Hx; subst; [eapply Dr_le; eassumption|now apply IH].
    - intros i r Hr Hni d Hd. destruct (In_nth_error _ _ Hd) as (j & Hj). pose proof (F2_nth _ _ _ j Ef) as Gj. rewrite Hj in Gj. destruct (nth_error (map fst l) j) as [x|] eqn:El; [|contradiction].
      apply nth_error_In in El. eapply Dr_le; [exact Gj|now apply (HR i)|]. apply (N5 i (map value r)); [now apply value_rows|now rewrite <- Es|exact El].
  Qed.
  Lemma within_transfer data q radius a l : table nf data -> Forall (Forall moderate) data -> length q = nf -> Forall moderate q -> finite radius ->
    Forall2 (found_rel Dr) a l -> within_by (computed_dist binary64 (ord nf) m) (values data) (map value q) (value radius) l -> dwithin (ddistance ord m) data q radius a.
  Proof.
    intros HT HM Hq Mq Fr G (N1 & N2 & N3). unfold table in HT. rewrite Forall_forall in HT, HM.
    assert (HR : forall i r, nth_error data i = Some r -> Dr (ddistance ord m r q) (computed_dist binary64 (ord nf) m (map value r) (map value q))).
    { intros i r Hr. apply nth_error_In in Hr. apply distance_related; auto. }
    assert (Dq : Dr radius (value radius)) by (now split).
    assert (Es : map snd a = map snd l) by (clear -G; induction G as [|e p a l [_ Hp] G IH]; cbn [map]; congruence).
    split; [now rewrite Es|]. split.
    - intros d i Hd. destruct (In_nth_error _ _ Hd) as (j & Hj). pose proof (F2_nth _ _ _ j G) as Gj. rewrite Hj in Gj. destruct (nth_error l j) as [[x i']|] eqn:El; [|contradiction].
      destruct Gj as [G1 G2]. cbn [fst snd] in *. subst i'. apply nth_error_In in El. destruct (N2 _ _ El) as (r' & Hr' & -> & Hx). apply value_rows_inv in Hr' as (r & Hr & ->).
      exists r. split; [exact Hr|]. split; [eapply Dr_eq; [exact G1|now apply (HR i)]|eapply Dr_le; eassumption].
    - intros i r Hr HL. rewrite (dlt_near _ _ _ _ (HR i r Hr) Dq) in HL. apply Rltb_true in HL. rewrite Es. apply (N3 i (map value r)); [now apply value_rows|exact HL].
  Qed.
End Results.

Lemma dbl_exact m e : (Z.abs m < 2 ^ 53)%Z -> (-1074 <= e <= 971)%Z -> finite (dbl m e) /\ B2R (dbl m e) = IZR m * bpow radix2 e.
Proof.
  intros Hm He. pose proof (binary_normalize_correct 53 1024 prec_pos prec_small mode_NE m e false) as G. change (SpecFloat.fexp 53 1024) with (FLT_exp (-1074) 53) in G.
  change (round_mode mode_NE) with ZnearestE in G. assert (N : Rabs (IZR m * bpow radix2 e) <= IZR (Z.abs m) * bpow radix2 e).
  { rewrite Rabs_mult, (Rabs_pos_eq (bpow _ _)) by apply bpow_ge_0. rewrite abs_IZR. lra. }
  assert (Hm0 : (0 <= Z.abs m < 2 ^ 53)%Z) by lia. pose proof (no_overflow _ _ _ Hm0 He N) as O. unfold binary64 in O. unfold F2R in G. cbn [Fnum Fexp] in G. rewrite O in G.
  destruct G as (G1 & G2 & _). split; [exact G2|]. unfold dbl. rewrite G1. apply round_generic; [apply valid_rnd_N|]. apply generic_format_FLT.
  apply FLT_spec with (Float radix2 m e); [reflexivity|exact Hm|tauto].
Qed.
Lemma dbl_moderate m e : (Z.abs m < 2 ^ 53)%Z -> (-1074 <= e <= 427)%Z -> moderate (dbl m e).
Proof.
  intros Hm He. destruct (dbl_exact m e Hm ltac:(lia)) as [F E]. split; [exact F|]. unfold value. rewrite E, Rabs_mult, (Rabs_pos_eq (bpow _ _)), <- abs_IZR by apply bpow_ge_0.
  change 480%Z with (53 + 427)%Z. rewrite bpow_plus. apply Rmult_le_compat; [apply IZR_le; lia|apply bpow_ge_0| |apply bpow_le; lia].
  change (bpow radix2 53) with (IZR (2 ^ 53)). apply IZR_le. lia.
Qed.
