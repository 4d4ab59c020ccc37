(** What a decision tree must be, without reference to how it is grown. *)
From Verif Require Import Base Tree_Model.
Set Implicit Arguments.

(** A strict total order, and a strict weak order (any two gains are comparable up to ties). *)
Record total_order {A} (lt : A -> A -> bool) : Prop := {
  to_irrefl : forall a, lt a a = false;
  to_trans : forall a b c, lt a b = true -> lt b c = true -> lt a c = true;
  to_total : forall a b, lt a b = false -> lt b a = false -> a = b }.
Record weak_order {A} (gt : A -> A -> bool) : Prop := {
  wo_irrefl : forall a, gt a a = false;
  wo_trans : forall a b c, gt a b = true -> gt b c = true -> gt a c = true;
  wo_co : forall a b c, gt a b = false -> gt b c = false -> gt a c = false }.

Section Spec.
  Variables T I : Type.
  Variable lt : T -> T -> bool.
  Variable mid : T -> T -> T.

  (** A labelled row. *)
  Notation row := (list T * T)%type.
  Definition goes_left (f : nat) (t : T) (x : list T) : bool :=
    match nth_error x f with Some v => negb (lt t v) | None => false end.

  Definition matrix (nf : nat) (X : list (list T)) : Prop := forall r, In r X -> length r = nf.

  (** [t] lies half-way between two neighbours of the sorted column [f]. *)
  Definition candidate (D : list row) (f : nat) (t : T) : Prop :=
    exists s i a b,
      Permutation (map Some s) (map (fun e => nth_error (fst e) f) D) /\
      StronglySorted (fun u v => lt v u = false) s /\
      nth_error s i = Some a /\ nth_error s (S i) = Some b /\ t = mid a b.

  (** Targets of the rows on either side of a threshold. *)
  Definition left_targets (D : list row) f t := map snd (filter (fun e => goes_left f t (fst e)) D).
  Definition right_targets (D : list row) f t := map snd (filter (fun e => negb (goes_left f t (fst e))) D).
  Definition gain_at (gain : list T -> list T -> list T -> outcome I) (D : list row) f t : outcome I :=
    gain (map snd D) (left_targets D f t) (right_targets D f t).

  (** Search order: by feature, then by threshold. *)
  Definition earlier (c d : nat * T) : Prop :=
    fst c < fst d \/ (fst c = fst d /\ lt (snd c) (snd d) = true).

  (** [(f,t)] with gain [g] is the first candidate of greatest gain, and better than [floor]. *)
  Definition first_best (nf : nat) (gain : list T -> list T -> list T -> outcome I) (gt : I -> I -> bool)
    (floor : I) (D : list row) (f : nat) (t : T) (g : I) : Prop :=
    f < nf /\ candidate D f t /\ gain_at gain D f t = Ok g /\ gt g floor = true /\
    forall f' t', f' < nf -> candidate D f' t' ->
      exists g', gain_at gain D f' t' = Ok g' /\ gt g' g = false /\
                 (earlier (f', t') (f, t) -> gt g g' = true).
  Definition none_better (nf : nat) (gain : list T -> list T -> list T -> outcome I) (gt : I -> I -> bool)
    (floor : I) (D : list row) : Prop :=
    forall f t, f < nf -> candidate D f t -> exists g, gain_at gain D f t = Ok g /\ gt g floor = false.

  (** * Trees and paths.  [true] goes to the left child. *)
  Variable V : Type.
  Notation tree := (dtree T I V).
  Definition child (b : bool) (t : tree) : tree :=
    match t with Null => Null | Node _ l r => if b then l else r end.
  Definition node_at (t : tree) (p : list bool) : tree := fold_left (fun t b => child b t) p t.
  (** The comparisons made along path [p] all send [x] along the path. *)
  Fixpoint follows (t : tree) (p : list bool) (x : list T) : bool :=
    match p with
    | [] => true
    | b :: p' =>
        match t with
        | Node i _ _ =>
            match n_split i with
            | Some (f, v, _) => Bool.eqb b (goes_left f v x) && follows (child b t) p' x
            | None => false
            end
        | Null => false
        end
    end.
  Definition rows_at (t : tree) (p : list bool) (D : list row) : list row :=
    filter (fun e => follows t p (fst e)) D.
End Spec.
Arguments Null {T I V}.
