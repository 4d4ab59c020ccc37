(** Models over the reals of [math::lu], [math::qr] and [math::logdet] of core/math/linalg.hpp.  A matrix is the list
    of its rows.  The decompositions are Eigen's: the algorithms are modelled here as Eigen documents them, without its
    blocking, which changes the order of the operations only. *)
From Coq Require Import Reals.
From Verif Require Import Base Common_Model KDReal_Proofs Impurity_Model Vec Linear_Model Decomp_Model.
Local Open Scope R_scope.
Set Implicit Arguments.

(** linalg.hpp:255-269. The first element with the largest value. *)
Fixpoint first_max {A} (f : A -> R) (best : A) (l : list A) : A :=
  match l with [] => best | a :: l' => first_max f (if Rltb (f best) (f a) then a else best) l' end.
(** linalg.hpp:255-269 *)
Definition swap {A} (z : A) (k l : nat) (x : list A) : list A := set_nth (set_nth x k (nth l x z)) l (nth k x z).
(** linalg.hpp:255-269 *)
Definition at_ (A : matrix) (i j : nat) : R := nth j (nth i A []) 0.

(** * The logarithm of the determinant *)
(** linalg.hpp:255-269. Eigen's PartialPivLU: the determinant of its permutation of the rows, and the diagonal of U.  A column that is 0 is
    left as it is. *)
Fixpoint partial_lu (d : nat) (A : matrix) : R * list R :=
  match d with
  | O => (1, [])
  | S d' =>
      let i := first_max (fun i => Rabs (at_ A i 0)) 0%nat (seq 0 (length A)) in
      let A' := swap [] 0 i A in
      let r0 := hd [] A' in
      let a := hd 0 r0 in
      let rest := if Req_EM_T a 0 then map (@tl R) (tl A') else map (fun r => vsub (tl r) (vscale (hd 0 r / a) (tl r0))) (tl A') in
      let (s, diag) := partial_lu d' rest in
      ((if (i =? 0)%nat then s else - s), a :: diag)
  end.
(** linalg.hpp:255-269 *)
Inductive extended := NegInf | Fin (a : R).
(** linalg.hpp:255-269.  A zero on the diagonal: its logarithm is -inf and so is the sum; the sign is NaN, which is not
    less than 0.  For a matrix that is not square, Eigen's assertion fails. *)
Definition logdet (nr nc : nat) (x : matrix) : outcome extended :=
  if negb (nr =? nc)%nat then UB
  else
    let (p, diag) := partial_lu nr x in
    if existsb (fun a => if Req_EM_T a 0 then true else false) diag then Ok NegInf
    else
      let log_abs_det := Rsum (map (fun a => ln (Rabs a)) diag) in
      let sign := p * fold_right Rmult 1 (map (fun a => a / Rabs a) diag) in
      Ok (if Rltb sign 0 then NegInf else Fin log_abs_det).

(** * LU *)
(** linalg.hpp:22-49. Eigen's FullPivLU.  The pivot is the largest entry of the rows and columns that remain, searched by columns. *)
Definition corner (nr nc k : nat) : list (nat * nat) := flat_map (fun j => map (fun i => (i, j)) (seq k (nr - k))) (seq k (nc - k)).
(** linalg.hpp:22-49 *)
Definition find_pivot (nr nc k : nat) (A : matrix) : nat * nat :=
  first_max (fun p => Rabs (at_ A (fst p) (snd p))) (k, k) (corner nr nc k).
(** linalg.hpp:22-49. The multipliers take the place of the column under the pivot. *)
Definition reduce (nr nc k : nat) (A : matrix) : matrix :=
  map (fun i => map (fun j =>
      if (k <? i)%nat then
        let f := at_ A i k / at_ A k k in
        if (j <? k)%nat then at_ A i j else if (j =? k)%nat then f else at_ A i j - f * at_ A k j
      else at_ A i j) (seq 0 nc)) (seq 0 nr).
(** linalg.hpp:22-49. [rp] and [cp]: the rows and columns of the argument that are now the rows and columns of [A]. *)
Fixpoint full_lu (nr nc : nat) (left : nat) (k : nat) (A : matrix) (rp cp : list nat) : matrix * list nat * list nat :=
  match left with
  | O => (A, rp, cp)
  | S left' =>
      let (i, j) := find_pivot nr nc k A in
      if Req_EM_T (at_ A i j) 0 then (A, rp, cp)
      else full_lu nr nc left' (S k) (reduce nr nc k (map (swap 0 k j) (swap [] k i A))) (swap 0%nat k i rp) (swap 0%nat k j cp)
  end.
(** linalg.hpp:22-49 *)
Definition lu (nr nc : nat) (x : matrix) (permute_l : bool) : matrix * matrix * matrix :=
  let min_size := Nat.min nr nc in
  let '(lu_m, rp, _) := full_lu nr nc min_size 0 x (seq 0 nr) (seq 0 nc) in
  let L := map (fun i => map (fun j => if (j <? i)%nat then at_ lu_m i j else if (j =? i)%nat then 1 else 0) (seq 0 min_size)) (seq 0 nr) in
  let U := map (fun i => map (fun j => if (i <=? j)%nat then at_ lu_m i j else 0) (seq 0 nc)) (seq 0 min_size) in
  let P := map (basis nr) rp in
  ((if permute_l then mat_mul min_size P L else P), L, U).

(** * QR *)
(** linalg.hpp:62-84. Eigen's [makeHouseholder] of the entries of [x] from the [k]th: the vector v, tau and beta.  (Eigen takes a tail
    of squared norm at most the smallest positive number for 0.) *)
Definition house (k : nat) (x : list R) : list R * R * R :=
  let c0 := nth k x 0 in
  let tail := skipn (S k) x in
  let t2 := Rsum (map (fun a => a * a) tail) in
  if Req_EM_T t2 0 then (zeros k ++ 1 :: map (fun _ => 0) tail, 0, c0)
  else
    let b := sqrt (c0 * c0 + t2) in
    let beta := if Rltb c0 0 then b else - b in
    (zeros k ++ 1 :: map (fun a => a / (c0 - beta)) tail, (beta - c0) / beta, beta).
(** linalg.hpp:62-84. [applyHouseholderOnTheLeft] to a column *)
Definition reflect (h : list R * R) (x : list R) : list R := vsub x (vscale (snd h * dot (fst h) x) (fst h)).
(** linalg.hpp:62-84. Eigen's HouseholderQR on the columns of the matrix: the reflections, and the columns of R.  (Eigen keeps the vectors
    under the diagonal.) *)
Fixpoint householder (left k : nat) (cols : list (list R)) : list (list R * R) * list (list R) :=
  match left with
  | O => ([], cols)
  | S left' =>
      let x := nth k cols [] in
      let '(v, tau, beta) := house k x in
      let cols' := map2 (fun j c => if (j <? k)%nat then c else if (j =? k)%nat then set_nth x k beta else reflect (v, tau) c) (seq 0 (length cols)) cols in
      let (hs, R) := householder left' (S k) cols' in
      ((v, tau) :: hs, R)
  end.
(** linalg.hpp:62-84 *)
Definition qr (nr nc : nat) (x : matrix) (full_matrix : bool) : matrix * matrix :=
  let min_size := Nat.min nr nc in
  let (hs, cols) := householder min_size 0 (transpose nc x) in
  let size := if full_matrix then nr else min_size in
  let Q := transpose nr (map (fun j => fold_right reflect (basis nr j) hs) (seq 0 size)) in
  let R := map (fun i => map (fun j => if (i <=? j)%nat then nth i (nth j cols []) 0 else 0) (seq 0 nc)) (seq 0 size) in
  (Q, R).
