(** Empirical distributions of labels, entropy and Gini index by their formulas. *)
From Coq Require Import Reals List.
Import ListNotations.
Local Open Scope R_scope.
Set Implicit Arguments.

Definition total (l : list R) : R := fold_right Rplus 0 l.

Section Dist.
  Variable T : Type.
  Variable eq_dec : forall a b : T, {a = b} + {a <> b}.
  (** The different labels of [x], each once, in any order. *)
  Definition labels_of (x ls : list T) : Prop := NoDup ls /\ forall l, In l ls <-> In l x.
  Definition freq (x : list T) (l : T) : R := INR (count_occ eq_dec x l) / INR (length x).
  Definition gini_index (x ls : list T) : R := 1 - total (map (fun l => freq x l * freq x l) ls).
  Definition shannon (x ls : list T) : R := total (map (fun l => - freq x l * (ln (freq x l) / ln 2)) ls).
  (** With a weight per row: share of the total weight carried by the rows with label [l]. *)
  Definition share (x : list T) (w : list R) (l : T) : R :=
    total (map snd (filter (fun e => if eq_dec (fst e) l then true else false) (combine x w))) / total w.
  Definition weighted_gini (x : list T) (w : list R) (ls : list T) : R := 1 - total (map (fun l => share x w l * share x w l) ls).
  Definition weighted_shannon (x : list T) (w : list R) (ls : list T) : R := total (map (fun l => - share x w l * (ln (share x w l) / ln 2)) ls).
End Dist.
