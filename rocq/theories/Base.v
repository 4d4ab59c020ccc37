(** Common definitions of the models: outcomes, ordered finite maps. *)
From Coq Require Export List Arith ZArith Lia Bool Permutation Sorted.
Export ListNotations.
Set Implicit Arguments.

(** * Outcomes of a C++ call

   [Ok]    normal return;
   [Throw] a C++ exception leaves the call;
   [UB]    undefined behaviour (out-of-range access, division by zero, null
           dereference, missing return, violated Eigen shape assertion);
   [Fuel]  the model ran out of recursion fuel: never a behaviour of the code,
           every theorem shows it does not occur. *)
Inductive exn := InvalidArgument | OutOfRange | RuntimeError | LengthError.

Inductive outcome (A : Type) : Type :=
| Ok (a : A)
| Throw (e : exn)
| UB
| Fuel.
Arguments Throw {A} e.
Arguments UB {A}.
Arguments Fuel {A}.

Definition bind {A B} (x : outcome A) (f : A -> outcome B) : outcome B :=
  match x with
  | Ok a => f a
  | Throw e => Throw e
  | UB => UB
  | Fuel => Fuel
  end.
Notation "'let!' x ':=' e1 'in' e2" :=
  (bind e1 (fun x => e2)) (at level 200, x pattern, e1 at level 100, e2 at level 200).

(** Vector read [v[i]]: out of range is undefined behaviour. *)
Definition vget {A} (v : list A) (i : nat) : outcome A :=
  match nth_error v i with Some a => Ok a | None => UB end.

(** Left-to-right monadic loops. *)
Fixpoint foldM {A S} (f : S -> A -> outcome S) (l : list A) (s : S) : outcome S :=
  match l with
  | [] => Ok s
  | a :: l' => let! s' := f s a in foldM f l' s'
  end.

Fixpoint mapM {A B} (f : A -> outcome B) (l : list A) : outcome (list B) :=
  match l with
  | [] => Ok []
  | a :: l' => let! b := f a in let! bs := mapM f l' in Ok (b :: bs)
  end.

Lemma foldM_app {A S} (f : S -> A -> outcome S) l1 l2 s :
  foldM f (l1 ++ l2) s = let! s' := foldM f l1 s in foldM f l2 s'.
Proof.
  revert s. induction l1 as [|a l1 IH]; intros s; simpl; [reflexivity|].
  destruct (f s a); simpl; auto.
Qed.

Lemma foldM_inv {A S} (P : S -> Prop) (f : S -> A -> outcome S) l s :
  P s ->
  (forall s a, In a l -> P s -> exists s', f s a = Ok s' /\ P s') ->
  exists s', foldM f l s = Ok s' /\ P s'.
Proof.
  revert s. induction l as [|a l IH]; intros s Hs Hf; simpl; [eauto|].
  destruct (Hf s a) as (s1 & E & H1); [now left|assumption|].
  rewrite E. simpl. apply IH; [assumption|].
  intros s2 b Hb. apply Hf. now right.
Qed.

Lemma mapM_Ok {A B} (f : A -> outcome B) (g : A -> B) l :
  (forall a, In a l -> f a = Ok (g a)) -> mapM f l = Ok (map g l).
Proof.
  induction l as [|a l IH]; intros H; simpl; [reflexivity|].
  rewrite H by now left. simpl. rewrite IH; [reflexivity|].
  intros b Hb. apply H. now right.
Qed.

Lemma mapM_inv {A B} (f : A -> outcome B) l bs :
  mapM f l = Ok bs -> Forall2 (fun a b => f a = Ok b) l bs.
Proof.
  revert bs. induction l as [|a l IH]; intros bs; simpl.
  - intros [= <-]. constructor.
  - destruct (f a) eqn:E; simpl; try discriminate.
    destruct (mapM f l) eqn:E2; simpl; try discriminate.
    intros [= <-]. constructor; auto.
Qed.

Lemma vget_Ok {A} (v : list A) i d : i < length v -> vget v i = Ok (nth i v d).
Proof.
  intros H. unfold vget. rewrite (nth_error_nth' v d H). reflexivity.
Qed.

(** * Lexicographic order of [std::vector<DataType>] keys *)
Fixpoint lex (a b : list Z) : comparison :=
  match a, b with
  | [], [] => Eq
  | [], _ :: _ => Lt
  | _ :: _, [] => Gt
  | x :: a', y :: b' =>
      match Z.compare x y with Eq => lex a' b' | c => c end
  end.

Lemma lex_eq a b : lex a b = Eq <-> a = b.
Proof.
  revert b. induction a as [|x a IH]; destruct b as [|y b]; simpl;
    try (split; congruence).
  destruct (Z.compare_spec x y) as [E|L|L].
  - rewrite IH. subst. split; congruence.
  - split; [congruence|]. intros [= -> _]. lia.
  - split; [congruence|]. intros [= -> _]. lia.
Qed.

Lemma lex_antisym a b : lex a b = CompOpp (lex b a).
Proof.
  revert b. induction a as [|x a IH]; destruct b as [|y b]; simpl; auto.
  rewrite (Z.compare_antisym y x). destruct (Z.compare y x); simpl; auto.
Qed.

Lemma lex_trans a b c : lex a b = Lt -> lex b c = Lt -> lex a c = Lt.
Proof.
  revert b c.
  induction a as [|x a IH]; destruct b as [|y b]; destruct c as [|z c]; simpl;
    try congruence.
  destruct (Z.compare_spec x y); destruct (Z.compare_spec y z); subst;
    try congruence; intros H1 H2.
  - rewrite Z.compare_refl. eauto.
  - destruct (Z.compare_spec y z); try lia; auto.
  - destruct (Z.compare_spec x z); try lia; auto.
  - destruct (Z.compare_spec x z); try lia; auto.
Qed.

(** * Ordered maps ([std::map]) as association lists in increasing key order *)
Section OMap.
  Variables K V : Type.
  Variable cmp : K -> K -> comparison.

  Fixpoint om_find (k : K) (m : list (K * V)) : option V :=
    match m with
    | [] => None
    | (k', v) :: m' => match cmp k k' with Eq => Some v | _ => om_find k m' end
    end.

  Fixpoint om_set (k : K) (v : V) (m : list (K * V)) : list (K * V) :=
    match m with
    | [] => [(k, v)]
    | (k', v') :: m' =>
        match cmp k k' with
        | Eq => (k, v) :: m'
        | Lt => (k, v) :: (k', v') :: m'
        | Gt => (k', v') :: om_set k v m'
        end
    end.

  Definition om_sorted (m : list (K * V)) : Prop :=
    StronglySorted (fun a b => cmp (fst a) (fst b) = Lt) m.

  Hypothesis cmp_eq : forall a b, cmp a b = Eq <-> a = b.
  Hypothesis cmp_antisym : forall a b, cmp a b = CompOpp (cmp b a).
  Hypothesis cmp_trans : forall a b c, cmp a b = Lt -> cmp b c = Lt -> cmp a c = Lt.

  Lemma cmp_refl a : cmp a a = Eq.
  Proof. now apply cmp_eq. Qed.

  Lemma om_find_In k v m : om_find k m = Some v -> In (k, v) m.
  Proof.
    induction m as [|[k' v'] m IH]; simpl; [discriminate|].
    destruct (cmp k k') eqn:E.
    - intros [= ->]. apply cmp_eq in E. subst. now left.
    - auto.
    - auto.
  Qed.

  Lemma om_find_None k m : om_find k m = None <-> ~ In k (map fst m).
  Proof.
    induction m as [|[k' v'] m IH]; simpl; [tauto|].
    destruct (cmp k k') eqn:E.
    - apply cmp_eq in E. subst. split; [discriminate|tauto].
    - rewrite IH. assert (k' <> k) by (intros ->; rewrite cmp_refl in E; discriminate). tauto.
    - rewrite IH. assert (k' <> k) by (intros ->; rewrite cmp_refl in E; discriminate). tauto.
  Qed.

  Lemma om_In_find k v m : NoDup (map fst m) -> In (k, v) m -> om_find k m = Some v.
  Proof.
    induction m as [|[k' v'] m IH]; simpl; [tauto|].
    intros ND [[= -> ->]|Hin].
    - now rewrite cmp_refl.
    - inversion ND as [|? ? Hn ND']; subst.
      destruct (cmp k k') eqn:E; auto.
      apply cmp_eq in E. subst. exfalso. apply Hn.
      apply in_map_iff. now exists (k', v).
  Qed.

  Lemma om_set_find k v m x :
    om_sorted m ->
    om_find x (om_set k v m) = match cmp x k with Eq => Some v | _ => om_find x m end.
  Proof.
    induction m as [|[k' v'] m IH]; simpl; intros Hs.
    - destruct (cmp x k); reflexivity.
    - inversion Hs as [|? ? Hs' Hall]; subst.
      destruct (cmp k k') eqn:E; simpl.
      + apply cmp_eq in E. subst k'.
        destruct (cmp x k) eqn:E2; simpl; reflexivity.
      + destruct (cmp x k) eqn:E2; simpl; reflexivity.
      + rewrite IH by assumption.
        destruct (cmp x k') eqn:E2.
        * apply cmp_eq in E2. subst x.
          rewrite cmp_antisym, E. simpl. reflexivity.
        * reflexivity.
        * reflexivity.
  Qed.

  Lemma om_set_In k v m e :
    In e (om_set k v m) -> e = (k, v) \/ In e m.
  Proof.
    induction m as [|[k' v'] m IH]; simpl.
    - intuition.
    - destruct (cmp k k'); simpl; intuition.
  Qed.

  Lemma om_set_sorted k v m : om_sorted m -> om_sorted (om_set k v m).
  Proof.
    induction m as [|[k' v'] m IH]; simpl; intros Hs.
    - repeat constructor.
    - inversion Hs as [|? ? Hs' Hall]; subst.
      destruct (cmp k k') eqn:E.
      + apply cmp_eq in E. subst k'. constructor; [assumption|exact Hall].
      + constructor; [exact Hs|].
        constructor; [exact E|].
        rewrite Forall_forall in Hall |- *. intros e He.
        specialize (Hall e He). simpl in *. eapply cmp_trans; eauto.
      + constructor; [now apply IH|].
        rewrite Forall_forall in Hall |- *. intros e He.
        apply om_set_In in He. destruct He as [->|He]; simpl.
        * rewrite cmp_antisym, E. reflexivity.
        * apply (Hall e He).
  Qed.

  Lemma om_sorted_NoDup m : om_sorted m -> NoDup (map fst m).
  Proof.
    induction 1 as [|[k v] m Hs IH Hall]; simpl; constructor; [|assumption].
    intros Hin. apply in_map_iff in Hin. destruct Hin as ((k' & v') & <- & Hin).
    rewrite Forall_forall in Hall. specialize (Hall _ Hin). simpl in Hall.
    rewrite cmp_refl in Hall. discriminate.
  Qed.
End OMap.
