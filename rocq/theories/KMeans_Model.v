(** Model of [methods/cluster/kmeans.hpp] over the reals.  Matrices are lists of rows. *)
From Coq Require Import Reals.
From Verif Require Import Base Common_Model KDReal_Proofs Impurity_Model Vec.
Local Open Scope R_scope.
Set Implicit Arguments.

(** kmeans.hpp:135-146 and 173-184. [a.array() - b.array()] of two rows: different sizes violate an assertion. *)
Definition row_sub (x c : list R) : outcome (list R) :=
  if (length x =? length c)%nat then Ok (vsub x c) else UB.
(** kmeans.hpp:135-146 and 173-184. [norm()] *)
Definition norm (v : list R) : R := sqrt (Rsum (map (fun a => a * a) v)).

(** kmeans.hpp:135-146 and 173-184. [dist < min_dist], min_dist starting at infinity. *)
Definition below (d : R) (m : option R) : bool := match m with None => true | Some m => Rltb d m end.

(** kmeans.hpp:135-146 and 173-184: scan of the centroids for one sample. *)
Definition closest_step (C : list (list R)) (x : list R) (s : option R * nat) (j : nat) : outcome (option R * nat) :=
  let! c := vget C j in
  let! v := row_sub x c in
  let dist := norm v in
  Ok (if below dist (fst s) then (Some dist, j) else s).
(** kmeans.hpp:135-146 and 173-184 *)
Definition closest (K : nat) (C : list (list R)) (x : list R) : outcome nat :=
  let! s := foldM (closest_step C x) (seq 0 K) (None, 0%nat) in Ok (snd s).

(** kmeans.hpp:169-188, 231-235.  The label is stored as a number of the data type. *)
Definition predict (K : nat) (C X : list (list R)) : outcome (list nat) := mapM (closest K C) X.

(** kmeans.hpp:147 [clusters[min_dist_index].push_back(i)] *)
Definition push_sample (m : list (nat * list nat)) (k i : nat) : list (nat * list nat) :=
  om_set Nat.compare k ((match om_find Nat.compare k m with Some is => is | None => [] end) ++ [i]) m.
(** kmeans.hpp:133-148 *)
Definition assign (K : nat) (C X : list (list R)) : outcome (list (nat * list nat)) :=
  foldM (fun m i => let! x := vget X i in let! k := closest K C x in Ok (push_sample m k i)) (seq 0 (length X)) [].

(** ops.hpp:100-104 [mean(x, 0)] of a matrix with [nf] columns. The mean of no rows is 0/0 (NaN), made UB here; clusters in the map are never empty. *)
Definition col_mean (nf : nat) (rows : list (list R)) : outcome (list R) :=
  match rows with [] => UB | _ => Ok (vscale (/ INR (length rows)) (vsum nf rows)) end.

(** kmeans.hpp:151-158 for one cluster.  The row is assigned the *transposed* mean, a column of
    type Matrix<Dynamic, Dynamic>: when Eigen's assertions are compiled in ([asserts]) that
    fails unless there is one feature; otherwise the coefficients are copied in order. *)
Definition move_one (asserts : bool) (nf : nat) (X : list (list R)) (s : list (list R) * R) (c : nat * list nat)
  : outcome (list (list R) * R) :=
  let! cluster := mapM (vget X) (snd c) in
  let! mean_c := col_mean nf cluster in
  let! old := vget (fst s) (fst c) in
  let! diff := row_sub mean_c old in
  if asserts && negb (nf =? 1)%nat then UB
  else Ok (set_nth (fst s) (fst c) mean_c, snd s + norm diff).

(** kmeans.hpp:131-163: one iteration; new centroids and [eps]. *)
Definition iteration (asserts : bool) (nf K : nat) (X C : list (list R)) : outcome (list (list R) * R) :=
  let! clusters := assign K C X in
  foldM (move_one asserts nf X) clusters (C, 0).

(** kmeans.hpp:127-164 *)
Fixpoint lloyd (asserts : bool) (nf K : nat) (tol : R) (X : list (list R)) (max_iter : nat) (C : list (list R))
  : outcome (list (list R)) :=
  match max_iter with
  | O => Ok C
  | S n =>
      let! (C', eps) := iteration asserts nf K X C in
      if Rltb eps tol then Ok C' else lloyd asserts nf K tol X n C'
  end.

(** * k-means++ *)
(** extmath.hpp:212-217 [row_norms(X - repeat(c), true)]: squared distances to one row. *)
Definition sq_dists (X : list (list R)) (c : list R) : outcome (list R) :=
  mapM (fun x => let! d := row_sub x c in Ok (Rsum (map (fun a => a * a) d))) X.

(** ops.hpp:274-280 [cumsum(x, -1)]: running sums. *)
Fixpoint cumsum_from (s : R) (l : list R) : list R :=
  match l with [] => [] | a :: l' => (s + a) :: cumsum_from (s + a) l' end.
(** ops.hpp:274-280 *)
Definition cumsum (l : list R) : list R := cumsum_from 0 l.

(** kmeans.hpp:68-73. [std::lower_bound] as the library's binary search; index of the result. *)
Fixpoint lower_bound_loop (fuel : nat) (l : list R) (v : R) (first len : nat) : outcome nat :=
  match len, fuel with
  | O, _ => Ok first
  | _, O => Fuel
  | _, S fuel' =>
      let half := Nat.div2 len in
      let! m := vget l (first + half) in
      if Rltb m v then lower_bound_loop fuel' l v (S (first + half)) (len - half - 1)
      else lower_bound_loop fuel' l v first half
  end.
(** kmeans.hpp:68-73 *)
Definition lower_bound (l : list R) (v : R) : outcome nat := lower_bound_loop (length l) l v 0 (length l).

(** kmeans.hpp:68-77: index clamped to the last sample. *)
Definition candidate_index (closest_dist : list R) (rand_val : R) : outcome nat :=
  let! k := lower_bound (cumsum closest_dist) rand_val in
  Ok (if (length closest_dist - 1 <? k)%nat then (length closest_dist - 1)%nat else k).

(** kmeans.hpp:60-98: one trial.  State: best potential so far (starting at the largest double),
    and the index and distances that reached it. *)
Definition trial (X : list (list R)) (closest_dist : list R) (pot : R) (s : R * option (nat * list R)) (r : R)
  : outcome (R * option (nat * list R)) :=
  let! k := candidate_index closest_dist (r * pot) in
  let! x := vget X k in
  let! ds := sq_dists X x in
  let ds' := map2 (fun c d => if Rltb c d then c else d) closest_dist ds in
  let p := Rsum ds' in
  Ok (if Rltb p (fst s) then (p, Some (k, ds')) else s).

(** kmeans.hpp:56. [ConstType<double>::max()] *)
Definition dbl_max : R := (2 - / 2 ^ 52) * 2 ^ 1023.

(** kmeans.hpp:49-102: the remaining centres; [draws] are the random vectors of the successive
    rounds.  [best_candidates] is uninitialised if no trial is below the largest double. *)
Fixpoint more_centres (X : list (list R)) (draws : list (list R)) (closest_dist : list R) (pot : R)
  : outcome (list (list R)) :=
  match draws with
  | [] => Ok []
  | rs :: draws' =>
      let! (pot', best) := foldM (trial X closest_dist pot) rs (dbl_max, None) in
      match best with
      | None => UB
      | Some (k, ds) =>
          let! x := vget X k in
          let! rest := more_centres X draws' ds pot' in
          Ok (x :: rest)
      end
  end.

(** kmeans.hpp:32-104.  [first] is the random first index; [draws] has one vector of
    [2 + (size_t)log(num_clusters)] numbers for each further cluster. *)
Definition local_trials (K : nat) : nat := (2 + Z.to_nat (Int_part (ln (INR K))))%nat.
(** kmeans.hpp:32-104 *)
Definition kmeans_plusplus (X : list (list R)) (first : nat) (draws : list (list R)) : outcome (list (list R)) :=
  let! c0 := vget X first in
  let! ds := sq_dists X c0 in
  let! rest := more_centres X draws ds (Rsum ds) in
  Ok (c0 :: rest).

(** kmeans.hpp:107-121.  Any other name leaves the centroids uninitialised. *)
Inductive init_kind := InitRandom (perm : list nat) | InitPlusPlus (first : nat) (draws : list (list R)) | InitOther.
(** kmeans.hpp:107-121 *)
Definition init_centroid (K : nat) (X : list (list R)) (init : init_kind) : outcome (list (list R)) :=
  match init with
  | InitRandom perm => if (K <=? length perm)%nat then mapM (vget X) (firstn K perm) else UB
  | InitPlusPlus first draws => kmeans_plusplus X first draws
  | InitOther => UB
  end.

(** kmeans.hpp:211-214.  The number of initialisations is never read. *)
Definition kmeans_fit (asserts : bool) (nf K : nat) (tol : R) (max_iter : nat) (init : init_kind) (X : list (list R))
  : outcome (list (list R)) :=
  let! C := init_centroid K X init in
  lloyd asserts nf K tol X max_iter C.
