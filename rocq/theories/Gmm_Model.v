(** Models over the reals of [math::cholesky] (core/math/linalg.hpp) and of [methods/mixture/gaussian_mixture.hpp].
    A matrix is the list of its rows, except the Cholesky factors of the precisions, which are lists of columns.
    The numbers drawn by [random::rand] are arguments.  Operands of different sizes violate an assertion of Eigen: [UB].
    A row of draws that are all 0 (0/0) gives NaNs in the code and is not modelled.  The members that [fit] has already
    overwritten when it throws are not modelled either. *)
From Coq Require Import Reals String.
From Verif Require Import Base Common_Model KDReal_Proofs Tree_Model Impurity_Model Vec MathFun_Model Stats_Model NB_Model Linear_Model Decomp_Model.
Local Open Scope R_scope.
Set Implicit Arguments.

(** * Cholesky *)
(** linalg.hpp:314-332. Eigen's LLT, which reads the lower triangle only and fails on a pivot that is not positive.  The result is L by its
    columns, each from the diagonal down.  (The order in which Eigen does the subtractions makes no difference over the
    reals.) *)
Fixpoint chol (d : nat) (A : matrix) : option matrix :=
  match d, A with
  | O, _ => Some []
  | S d', (a :: _) :: rows =>
      if Rltb 0 a then
        let l := sqrt a in
        let below := map (fun r => hd 0 r / l) rows in
        let rest := map2 (fun r b => vsub (tl r) (vscale b below)) rows below in
        match chol d' rest with
        | Some L => Some ((l :: below) :: L)
        | None => None
        end
      else None
  | S _, _ => None
  end.
(** linalg.hpp:314-332. L^T by its rows, from its rows packed as above after [k] zeros. *)
Fixpoint unpack (k : nat) (U : matrix) : matrix :=
  match U with [] => [] | r :: U' => (zeros k ++ r) :: unpack (S k) U' end.
(** linalg.hpp:314-332 *)
Definition cholesky (d : nat) (x : matrix) (lower : bool) : outcome matrix :=
  match chol d x with
  | None => Throw RuntimeError
  | Some U => Ok (if lower then transpose d (unpack 0 U) else unpack 0 U)
  end.

(** * gaussian_mixture.hpp *)
(** gaussian_mixture.hpp:76. [triangularView<Lower>().transpose().solve(b)]: back substitution with the rows of L^T. *)
Fixpoint back_solve (U : matrix) (b : list R) : list R :=
  match U, b with
  | (l :: t) :: U', v :: b' => let x := back_solve U' b' in (v - dot t x) / l :: x
  | _, _ => []
  end.
(** gaussian_mixture.hpp:68-79: one component *)
Definition precision_chol (d : nat) (covariance : matrix) : outcome matrix :=
  match chol d covariance with
  | None => Throw RuntimeError
  | Some U => Ok (map (fun j => back_solve U (basis d j)) (seq 0 d))
  end.
(** gaussian_mixture.hpp:62-82: [covariances[0].rows()] *)
Definition compute_precision_cholesky (covariances : list matrix) : outcome (list matrix) :=
  let! c := vget covariances 0 in
  mapM (precision_chol (length c)) covariances.
(** gaussian_mixture.hpp:94-107 *)
Definition log_det_chol (P : matrix) : R := Rsum (map (fun j => ln (nth j (nth j P []) 0)) (seq 0 (length P))).

(** gaussian_mixture.hpp:146. [resp.col(k)] *)
Definition resp_col (k : nat) (resp : matrix) : list R := map (fun r => nth k r 0) resp.
(** gaussian_mixture.hpp:239. the row vector [resp.col(k)^T * X] *)
Definition weighted_sum (d : nat) (r : list R) (X : matrix) : list R := vsum d (map2 vscale r X).
(** gaussian_mixture.hpp:146-149. [(resp .* diff)^T * diff] *)
Definition weighted_scatter (d : nat) (r : list R) (D : matrix) : matrix :=
  map (fun a => vsum d (map2 (fun c x => vscale (c * nth a x 0) x) r D)) (seq 0 d).
(** gaussian_mixture.hpp:127-161: one component *)
Definition covariance_full (d : nat) (X : matrix) (r : list R) (mean : list R) (nk reg : R) : matrix :=
  let diff := map (fun x => vsub x mean) X in
  add_diag reg d (map (map (fun a => a / nk)) (weighted_scatter d r diff)).
(** gaussian_mixture.hpp:181-210 *)
Definition covariance_tied (d : nat) (X means : matrix) (nk : list R) (reg : R) : matrix :=
  let avg_X := weighted_scatter d (map (fun _ => 1) X) X in
  let avg_means := weighted_scatter d nk means in
  add_diag reg d (map (map (fun a => a / Rsum nk)) (map2 vsub avg_X avg_means)).
(** gaussian_mixture.hpp:222-252.  [eps] is ten times the epsilon of the number type.  For another [covariance_type] there are no covariances. *)
Definition estimate_parameters (eps reg : R) (covariance_type : string) (K d : nat) (X resp : matrix) : list matrix * matrix * list R :=
  let nk := map (fun k => Rsum (resp_col k resp) + eps) (seq 0 K) in
  let means := map2 (fun k n => map (fun a => a / n) (weighted_sum d (resp_col k resp) X)) (seq 0 K) nk in
  let covariances :=
    if String.eqb covariance_type "full" then map (fun k => covariance_full d X (resp_col k resp) (nth k means []) (nth k nk 0) reg) (seq 0 K)
    else if String.eqb covariance_type "tied" then [covariance_tied d X means nk reg]
    else [] in
  (covariances, means, nk).

(** gaussian_mixture.hpp:46-50 *)
Record params := Params { g_means : matrix; g_weights : list R; g_covariances : list matrix; g_precisions_chol : list matrix }.
(** gaussian_mixture.hpp:379-388, 424-436: what [initialize_parameters] and [m_step] do with the responsibilities *)
Definition new_params (eps reg : R) (covariance_type : string) (K d : nat) (X resp : matrix) : outcome params :=
  let '(covariances, means, nk) := estimate_parameters eps reg covariance_type K d X resp in
  let! P := compute_precision_cholesky covariances in
  Ok (Params means (map (fun a => a / INR (length X)) nk) covariances P).
(** gaussian_mixture.hpp:365-390.  For another [init_params] the responsibilities are not initialised. *)
Definition initialize_parameters (draw : matrix) (init : string) (eps reg : R) (covariance_type : string) (K d : nat) (X : matrix) : outcome params :=
  if String.eqb init "random" then new_params eps reg covariance_type K d X (map (fun r => map (fun a => a / Rsum r) r) draw)
  else UB.

(** gaussian_mixture.hpp:273-296: the squared distance of a sample to the mean of component [i] *)
Definition component_distance (covariance_type : string) (Ps : list matrix) (i : nat) (mu x : list R) : outcome R :=
  let! P := if String.eqb covariance_type "tied" then vget Ps 0 else vget Ps i in
  Ok (Rsum (map (fun c => sq (dot x c - dot mu c)) P)).
(** gaussian_mixture.hpp:261-308: the sizes of [log_prob] and of the repeated [log_det] must agree; [X] has [d] columns, the model [d'] *)
Definition estimate_log_prob (covariance_type : string) (Ps : list matrix) (d : nat) (X means : matrix) : outcome matrix :=
  let log_det := map log_det_chol Ps in
  let v := INR d * ln (2 * PI) * (- (1 / 2)) in
  let! log_prob := mapM (fun x => mapM (fun i => let! mu := vget means i in component_distance covariance_type Ps i mu x) (seq 0 (length means))) X in
  if negb (length log_det =? length means)%nat then UB
  else Ok (map (fun row => map2 (fun a l => a * (- (1 / 2)) + v + l) row log_det) log_prob).
(** gaussian_mixture.hpp:315-333.  A matrix with another number of columns than the factors cannot be multiplied with them. *)
Definition estimate_weighted_log_prob (covariance_type : string) (p : params) (d : nat) (X : matrix) : outcome matrix :=
  if existsb (fun P => negb (length P =? d)%nat) (g_precisions_chol p) then UB
  else
    let! log_prob := estimate_log_prob covariance_type (g_precisions_chol p) d X (g_means p) in
    let log_weights := map ln (g_weights p) in
    if negb (length log_weights =? length (g_means p))%nat then UB
    else Ok (map (fun row => vadd row log_weights) log_prob).
(** gaussian_mixture.hpp:341-360, 400-411: the mean of the log probabilities of the samples, and the log responsibilities *)
Definition e_step (covariance_type : string) (p : params) (K d : nat) (X : matrix) : outcome (R * matrix) :=
  let! w := estimate_weighted_log_prob covariance_type p d X in
  let! log_prob_norm := logsumexp K w 1 in
  Ok (mean1 log_prob_norm, map2 (fun r s => map (fun a => a - s) r) w log_prob_norm).
(** gaussian_mixture.hpp:420-438 *)
Definition m_step (eps reg : R) (covariance_type : string) (K d : nat) (X log_resp : matrix) : outcome params :=
  new_params eps reg covariance_type K d X (map (map exp) log_resp).

(** gaussian_mixture.hpp:466-483: [lower_bound] is [None] for minus infinity.  The result: converged, lower bound, parameters. *)
Fixpoint em (eps reg tol : R) (covariance_type : string) (K d : nat) (X : matrix) (iters : nat) (lower_bound : option R) (p : params)
    : outcome (bool * option R * params) :=
  match iters with
  | O => Ok (false, lower_bound, p)
  | S n =>
      let! (log_prob_norm, log_resp) := e_step covariance_type p K d X in
      let! p' := m_step eps reg covariance_type K d X log_resp in
      let close := match lower_bound with None => false | Some prev => Rltb (Rabs (log_prob_norm - prev)) tol end in
      if close then Ok (true, Some log_prob_norm, p')
      else em eps reg tol covariance_type K d X n (Some log_prob_norm) p'
  end.
(** gaussian_mixture.hpp:485-486. [lower_bound > max_lower_bound || max_lower_bound == -infinity] *)
Definition better (lower_bound max_lower_bound : option R) : bool :=
  match max_lower_bound, lower_bound with
  | None, _ => true
  | Some _, None => false
  | Some m, Some l => Rltb m l
  end.
(** gaussian_mixture.hpp:463-497: the loop over the initialisations *)
Fixpoint em_inits (draws : nat -> matrix) (init : string) (eps reg tol : R) (covariance_type : string) (max_iter K d : nat) (X : matrix) (inits : list nat)
    (best : bool * option R * params) : outcome (bool * option R * params) :=
  match inits with
  | [] => Ok best
  | i :: inits' =>
      let! p0 := initialize_parameters (draws i) init eps reg covariance_type K d X in
      let! (conv, lb, p) := em eps reg tol covariance_type K d X max_iter None p0 in
      let '(converged, max_lb, q) := best in
      em_inits draws init eps reg tol covariance_type max_iter K d X inits' (if better lb max_lb then (converged || conv, lb, p) else (converged || conv, max_lb, q))
  end.

(** gaussian_mixture.hpp:46-51 *)
Record gmm := Gmm { m_params : params; m_precisions : list matrix; m_lower_bound : R }.
(** gaussian_mixture.hpp:46-50 *)
Definition params0 : params := Params [] [] [] [].
(** gaussian_mixture.hpp:507-512 *)
Definition outer (d : nat) (P : matrix) : matrix := map (fun a => map (fun b => Rsum (map (fun c => nth a c 0 * nth b c 0) P)) (seq 0 d)) (seq 0 d).
(** gaussian_mixture.hpp:443-517.  [precisions_] is not cleared. *)
Definition gmm_fit (draws : nat -> matrix) (init covariance_type : string) (eps reg tol : R) (max_iter num_init K d : nat) (m : gmm) (X : matrix) : outcome gmm :=
  if (length X <? K)%nat then Throw OutOfRange
  else
    let! (converged, lb, p) := em_inits draws init eps reg tol covariance_type max_iter K d X (seq 0 num_init) (false, None, params0) in
    if negb converged then Throw RuntimeError
    else
      let! _ := e_step covariance_type p K d X in
      Ok (Gmm p (m_precisions m ++ map (outer d) (g_precisions_chol p)) (match lb with Some l => l | None => 0 end)).
(** gaussian_mixture.hpp:556-566 *)
Definition gmm_predict (covariance_type : string) (m : gmm) (d : nat) (X : matrix) : outcome (list R) :=
  let! w := estimate_weighted_log_prob covariance_type (m_params m) d X in predict_of w.
(** gaussian_mixture.hpp:571-578 *)
Definition gmm_predict_prob (covariance_type : string) (m : gmm) (K d : nat) (X : matrix) : outcome matrix :=
  let! (_, log_resp) := e_step covariance_type (m_params m) K d X in Ok (map (map exp) log_resp).
