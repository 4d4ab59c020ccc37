(** Models over the reals of [math::svd_flip], [math::diagmat] (core/math/extmath.hpp), [math::randomized_svd],
    [math::pinv] (core/math/linalg.hpp), and of [methods/decomposition].  A matrix is the list of its rows, except the
    factors of a decomposition: U, V and Q are lists of columns (so that V by its columns is also V^T by its rows).
    Eigen's decompositions are arguments ([svd full nc x], [qr], [lu]), as are the drawn random numbers; the theorems
    assume of [svd] what Decomp_Spec.v says of a singular value decomposition.
    Operands of different sizes, and blocks larger than the matrix, violate an assertion: [UB].  0/0 (data of no
    variance, or one sample) is a NaN in the code and is not modelled. *)
From Coq Require Import Reals String.
From Verif Require Import Base Common_Model KDReal_Proofs Tree_Model Impurity_Model Vec MathFun_Model Stats_Model Linear_Model.
Local Open Scope R_scope.
Set Implicit Arguments.

(** extmath.hpp:30-36 *)
Definition matrix := list (list R).
(** linalg.hpp:97-123. columns of U, singular values, columns of V *)
Definition factors : Type := (matrix * list R * matrix)%type.

(** pca.hpp:66-69 and linalg.hpp:200-210. [topRows(k)], [leftCols(k)], [bottomRows(k)] *)
Definition top_rows {A} (k : nat) (l : list A) : outcome (list A) := if (k <=? length l)%nat then Ok (firstn k l) else UB.
(** pca.hpp:60 *)
Definition bottom_rows {A} (k : nat) (l : list A) : outcome (list A) :=
  if (k <=? length l)%nat then Ok (skipn (length l - k) l) else UB.
(** pca.hpp:79, 95. Products: [a * b] where b has [nc] columns, and the transpose of a matrix with [nc] columns. *)
Definition mat_mul (nc : nat) (a b : matrix) : matrix := map (fun r => vsum nc (map2 vscale r b)) a.
(** pca.hpp:79, 95 *)
Definition transpose (nc : nat) (a : matrix) : matrix := map (fun j => map (fun r => nth j r 0) a) (seq 0 nc).

(** extmath.hpp:30-36 *)
Definition diagmat (v : list R) : matrix := map2 (fun i a => set_nth (zeros (length v)) i a) (seq 0 (length v)) v.

(** extmath.hpp:61-71, 77-88: the sign of the first entry of largest absolute value of one column of U (row of V^T). *)
Definition flip_sign (u : list R) : outcome R :=
  let! i := arg_best (fun a b => Rltb b a) (map Rabs u) in
  let! a := vget u i in
  Ok (sign1 a).
(** extmath.hpp:52-93 *)
Definition svd_flip (u_based : bool) (U Vt : matrix) : outcome (matrix * matrix) :=
  let! signs := mapM flip_sign (if u_based then U else Vt) in
  if negb (length signs =? length U)%nat then UB
  else if negb (length signs =? length Vt)%nat then UB
  else Ok (map2 vscale signs U, map2 vscale signs Vt).

(** linalg.hpp:223-246; the matrix is [nr] x [nc]. *)
Definition inv_cut (tol a : R) : R := if Rltb tol a then 1 / a else 0.
(** linalg.hpp:223-246 *)
Definition pinv (svd : bool -> nat -> matrix -> factors) (tol : R) (nr nc : nat) (x : matrix) : matrix :=
  let '(U, s, V) := svd true nc x in
  let s_inv := map (fun i => map (fun j => if ((i =? j) && (i <? length s))%nat then inv_cut tol (nth i s 0) else 0) (seq 0 nr)) (seq 0 nc) in
  mat_mul nr (mat_mul nr (transpose nc V) s_inv) U.

(** * pca.hpp *)
(** decomposition/base.hpp:19-25 and pca.hpp:29-30 *)
Record pca := Pca { p_features : nat; p_components : matrix; p_singular : list R; p_explained : list R; p_ratio : list R;
  p_noise : R; p_covariance : matrix; p_precision : matrix }.
(** decomposition/base.hpp:19-25 and pca.hpp:29-30 *)
Definition pca0 : pca := Pca 0 [] [] [] [] 0 [] [].

(** pca.hpp:33-70; a fit leaves covariance_ and precision_ as they are.  [d = X.cols()]. *)
Definition pca_fit (svd : bool -> nat -> matrix -> factors) (solver : string) (k d : nat) (m : pca) (X : matrix) : outcome pca :=
  let n := length X in
  let centered_X := center d X in
  let! (s, (components, explained_var)) :=
    if String.eqb solver "svd" then
      let '(U, s, V) := svd false d centered_X in
      let! (_, Vt) := svd_flip true U V in
      Ok (s, (Vt, map (fun a => sq a / (INR n - 1)) s))
    else Ok ([], ([], [])) in
  let total_var := Rsum explained_var in
  let explained_var_ratio := map (fun a => a / total_var) explained_var in
  let! noise_var :=
    if (k <? Nat.min n d)%nat then let! b := bottom_rows (Nat.min n d - k) explained_var in Ok (mean1 b) else Ok 0 in
  let! s := top_rows k s in
  let! components := top_rows k components in
  let! explained_var := top_rows k explained_var in
  let! explained_var_ratio := top_rows k explained_var_ratio in
  Ok (Pca d components s explained_var explained_var_ratio noise_var (p_covariance m) (p_precision m)).

(** pca.hpp:73-81 *)
Definition pca_transform (m : pca) (nc : nat) (X : matrix) : outcome matrix :=
  let centered_X := center nc X in
  if (nc =? p_features m)%nat then Ok (map (fun r => map (fun c => dot r c) (p_components m)) centered_X) else UB.

(** pca.hpp:84-102, 168-171 *)
Definition pca_get_covariance (m : pca) : pca :=
  let d := p_features m in
  let k := length (p_explained m) in
  let explained_var_diff := map (map (fun a => Rmax (a - p_noise m) 0)) (diagmat (p_explained m)) in
  let cov := mat_mul d (mat_mul k (transpose d (p_components m)) explained_var_diff) (p_components m) in
  let cov := map2 vadd cov (map (fun i => vscale (p_noise m) (basis d i)) (seq 0 d)) in
  Pca d (p_components m) (p_singular m) (p_explained m) (p_ratio m) (p_noise m) cov (p_precision m).
(** pca.hpp:105-107, 178-181: covariance_ is used as it is (0 x 0 before the first [get_covariance]). *)
Definition pca_get_precision (svd : bool -> nat -> matrix -> factors) (m : pca) : pca :=
  let d := length (p_covariance m) in
  Pca (p_features m) (p_components m) (p_singular m) (p_explained m) (p_ratio m) (p_noise m) (p_covariance m)
    (pinv svd (1 / 1000000) d d (p_covariance m)).
(** pca.hpp:110-125 *)
Definition pca_score_samples (logdet : matrix -> R) (m : pca) (nc : nat) (X : matrix) : outcome (list R) :=
  if (nc =? length (p_precision m))%nat then
    Ok (map (fun x => Rsum (map2 Rmult x (vsum nc (map2 vscale x (p_precision m)))) * (- (1 / 2))
                      - (1 / 2) * (INR nc * ln (2 * PI) - logdet (p_precision m))) X)
  else UB.
(** pca.hpp:146-158 *)
Definition pca_score (logdet : matrix -> R) (m : pca) (nc : nat) (X : matrix) : outcome R :=
  let! log_like := pca_score_samples logdet m nc (center nc X) in Ok (mean1 log_like).

(** * randomized_svd, linalg.hpp:138-210 *)
(** linalg.hpp:161-185. [X * Q] and [X^T * Q], column by column *)
Definition times (X Q : matrix) : matrix := map (fun q => map (fun x => dot x q) X) Q.
(** linalg.hpp:161-185 *)
Definition times_t (nc : nat) (X Q : matrix) : matrix := map (fun q => vsum nc (map2 vscale q X)) Q.
(** linalg.hpp:161-185; [lu] gives P*L, [qr] gives the thin Q, of a matrix given by its columns. *)
Definition power_step (lu qr : matrix -> matrix) (normalizer : string) (nc : nat) (X Q : matrix) : outcome matrix :=
  if String.eqb normalizer "None" then Ok (times_t nc X (times X Q))
  else if String.eqb normalizer "LU" then Ok (lu (times_t nc X (lu (times X Q))))
  else if String.eqb normalizer "QR" then Ok (qr (times_t nc X (qr (times X Q))))
  else Throw InvalidArgument.
(** linalg.hpp:161-185 *)
Fixpoint power_steps (lu qr : matrix -> matrix) (normalizer : string) (nc : nat) (X : matrix) (iters : nat) (Q : matrix) : outcome matrix :=
  match iters with
  | O => Ok Q
  | S i => let! Q := power_step lu qr normalizer nc X Q in power_steps lu qr normalizer nc X i Q
  end.
(** linalg.hpp:138-210. [draw]: the num_features x num_random matrix of normal deviates, by its columns. *)
Definition randomized_svd (svd : bool -> nat -> matrix -> factors) (lu qr : matrix -> matrix) (draw : matrix) (k p iters : nat) (normalizer : string)
    (flip : bool) (nc : nat) (X : matrix) : outcome factors :=
  let nr := length X in
  if (Nat.min nr nc <? k + p)%nat then Throw InvalidArgument
  else
    let! Q := power_steps lu qr normalizer nc X iters draw in
    let Q := qr (times X Q) in
    let B := times_t nc X Q in
    let '(Uhat, s, V) := svd true nc B in
    let U := map (fun c => vsum nr (map2 vscale c Q)) Uhat in
    let! (U, Vt) := if flip then svd_flip true U V else Ok (U, V) in
    let! U := top_rows k U in
    let! s := top_rows k s in
    let! Vt := top_rows k Vt in
    Ok (U, s, Vt).

(** * truncated_svd.hpp *)
(** decomposition/base.hpp:19-25 and truncated_svd.hpp:28-30 *)
Record tsvd := Tsvd { t_features : nat; t_components : matrix; t_singular : list R; t_explained : list R; t_ratio : list R }.
(** truncated_svd.hpp:52 *)
Definition first_row (m : matrix) : outcome (list R) := vget m 0.
(** truncated_svd.hpp:33-54 *)
Definition tsvd_fit (svd : bool -> nat -> matrix -> factors) (lu qr : matrix -> matrix) (draw : matrix) (k p iters : nat) (normalizer solver : string)
    (d : nat) (X : matrix) : outcome tsvd :=
  if String.eqb solver "randomized" then
    let! (_, s, Vt) := randomized_svd svd lu qr draw k p iters normalizer true d X in
    let X_transformed := map (fun r => map (fun c => dot r c) Vt) X in
    let! full := var d X 0 in
    let! v := var (length Vt) X_transformed 0 in
    let! v := first_row v in
    Ok (Tsvd d Vt s v (map (fun a => a / Rsum (concat full)) v))
  else Ok (Tsvd 0 [] [] [] []).
(** truncated_svd.hpp:57-63 *)
Definition tsvd_transform (m : tsvd) (nc : nat) (X : matrix) : outcome matrix :=
  if (nc =? t_features m)%nat then Ok (map (fun r => map (fun c => dot r c) (t_components m)) X) else UB.
