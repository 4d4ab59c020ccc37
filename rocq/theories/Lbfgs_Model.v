(** Models over the reals of [core/optimizer/lbfgs/*.hpp] and its line searches.  The objective is any pair of functions
    (the loss on fixed data) that may fail.  Printing is not modelled; divisions by zero, infinities and NaN neither. *)
From Coq Require Import Reals.
From Verif Require Import Base Common_Model KDReal_Proofs Vec Loss_Model.
Local Open Scope R_scope.
Set Implicit Arguments.

(** backtracking.hpp:72-97. Eigen's [dot]: sizes that differ violate an assertion. *)
Definition dotM (u v : list R) : outcome R := if (length u =? length v)%nat then Ok (dot u v) else UB.
(** backtracking.hpp:72-97 *)
Definition Rleb (a b : R) : bool := negb (Rltb b a).

(** lbfgs/params.hpp:13-20.  [condition_]: "ARMIJO", "WOLFE" or anything else. *)
Inductive ls_condition := Armijo | Wolfe | OtherCondition.
(** lbfgs/params.hpp:13-20 *)
Record ls_params := LsParams {
  dec_factor : R; inc_factor : R; ftol : R; wolfe : R; max_step : R; min_step : R;
  max_linesearch : nat; condition : ls_condition }.

(** backtracking.hpp:63-114. What [search] leaves in x, fx, g, step, its return value ([None] for -1), and, for the theorems only, the steps
    it tried, oldest first. *)
Record ls_result := LsResult {
  ls_code : option nat; ls_x : list R; ls_fx : R; ls_g : list R; ls_step : R; ls_tried : list R }.

Section Search.
  Variable evaluate : list R -> outcome R.
  Variable gradient : list R -> outcome (list R).
  Variable P : ls_params.

  (** backtracking.hpp:72-97 *)
  Inductive verdict := Accept | TooLong | TooShort.
  (** backtracking.hpp:72-97, bracketing.hpp:73-98: what the trial at [step] amounts to. *)
  Definition judge (fx_init dg_init fx : R) (g d : list R) (step : R) : outcome verdict :=
    let dg_test := ftol P * dg_init in
    if Rltb (fx_init + step * dg_test) fx then Ok TooLong
    else
      match condition P with
      | Armijo => Ok Accept
      | c =>
          let! dg := dotM d g in
          if Rltb dg (wolfe P * dg_init) then Ok TooShort
          else match c with
               | Wolfe => Ok Accept
               | _ => if Rltb (- wolfe P * dg_init) dg then Ok TooLong else Ok Accept
               end
      end.

  (** The two searches differ in what they remember of a rejected trial and in the next step. *)
  Variable St : Type.
  Variable too_long too_short : St -> R -> St.
  Variable next : St -> R -> R.

  (** backtracking.hpp:63-114, bracketing.hpp:64-115.  [fuel] bounds the iterations; a theorem says it suffices. *)
  Fixpoint search_loop (fuel : nat) (fx_init dg_init : R) (d xp : list R) (s : St) (count : nat) (step : R) (tried : list R) : outcome ls_result :=
    match fuel with
    | O => Fuel
    | S fuel' =>
        let! x := add xp (vscale step d) in
        let! fx := evaluate x in
        let! g := gradient x in
        let count := S count in
        let tried := tried ++ [step] in
        let result c := Ok (LsResult c x fx g step tried) in
        let! v := judge fx_init dg_init fx g d step in
        let go s :=
          if Rltb step (min_step P) then result None
          else if Rltb (max_step P) step then result None
          else if (max_linesearch P <=? count)%nat then result None
          else search_loop fuel' fx_init dg_init d xp s count (next s step) tried in
        match v with
        | Accept => result (Some count)
        | TooLong => go (too_long s step)
        | TooShort => go (too_short s step)
        end
    end.

  (** backtracking.hpp:46-63, bracketing.hpp:46-63 *)
  Definition search (s0 : St) (x : list R) (fx : R) (g d : list R) (step : R) (xp : list R) : outcome ls_result :=
    if negb (Rltb 0 step) then Ok (LsResult None x fx g step [])
    else
      let! dg_init := dotM d g in
      if Rltb 0 dg_init then Ok (LsResult None x fx g step [])
      else search_loop (S (max_linesearch P)) fx dg_init d xp s0 0 step [].
End Search.

(** backtracking.hpp:35-115: the state is [width], first unset. *)
Definition backtracking (evaluate : list R -> outcome R) (gradient : list R -> outcome (list R)) (P : ls_params) :=
  search evaluate gradient P (fun _ _ => dec_factor P) (fun _ _ => inc_factor P) (fun width step => step * width) 0.
(** bracketing.hpp:35-116: [step_lo] and [step_hi], where [None] is infinity. *)
Definition bracketing (evaluate : list R -> outcome R) (gradient : list R -> outcome (list R)) (P : ls_params) :=
  search evaluate gradient P
    (fun (s : R * option R) step => (fst s, Some step)) (fun s step => (step, snd s))
    (fun s step => match snd s with None => 2 * step | Some hi => (fst s + hi) / 2 end) (0, None).

(** lbfgs.hpp:76-90: the search chosen by name. *)
Inductive ls_policy := Backtracking | Bracketing | OtherPolicy.
(** lbfgs.hpp:76-90 *)
Definition line_search (policy : ls_policy) (evaluate : list R -> outcome R) (gradient : list R -> outcome (list R)) (P : ls_params)
  (x : list R) (fx : R) (g d : list R) (step : R) (xp : list R) : outcome ls_result :=
  match policy with
  | Backtracking => backtracking evaluate gradient P x fx g d step xp
  | Bracketing => bracketing evaluate gradient P x fx g d step xp
  | OtherPolicy => Throw InvalidArgument
  end.

(** * lbfgs.hpp *)

(** lbfgs.hpp:127-221. [M.col(j) = v] *)
Definition set_colM {A} (M : list A) (j : nat) (v : A) : outcome (list A) := if (j <? length M)%nat then Ok (set_nth M j v) else UB.
(** lbfgs.hpp:200-207. [a % b] *)
Definition modM (a b : nat) : outcome nat := if (b =? 0)%nat then UB else Ok (a mod b)%nat.

Section Memory.
  Variable mem_size : nat.
  Variables mem_s mem_y : list (list R).
  Variable mem_ys : list R.
  (** lbfgs.hpp:200-207: j, d, and the alphas stored by position (last write first). *)
  Definition loop1 (a : nat * list R * list (nat * R)) (_ : nat) : outcome (nat * list R * list (nat * R)) :=
    let '(j, d, alphas) := a in
    let! j := modM (j + mem_size - 1) mem_size in
    let! s := vget mem_s j in
    let! y := vget mem_y j in
    let! ys := vget mem_ys j in
    let! sd := dotM s d in
    let alpha := sd / ys in
    let! d := add d (vscale (- alpha) y) in
    Ok (j, d, (j, alpha) :: alphas).
  (** lbfgs.hpp:200-207 *)
  Definition lookup_alpha (alphas : list (nat * R)) (j : nat) : outcome R :=
    match find (fun e => (fst e =? j)%nat) alphas with Some e => Ok (snd e) | None => UB end.
  (** lbfgs.hpp:212-219 *)
  Definition loop2 (alphas : list (nat * R)) (a : nat * list R) (_ : nat) : outcome (nat * list R) :=
    let '(j, d) := a in
    let! s := vget mem_s j in
    let! y := vget mem_y j in
    let! ys := vget mem_ys j in
    let! yd := dotM y d in
    let beta := yd / ys in
    let! alpha := lookup_alpha alphas j in
    let! d := add d (vscale (alpha - beta) s) in
    let! j := modM (j + 1) mem_size in
    Ok (j, d).
  (** lbfgs.hpp:192, 197-219 *)
  Definition new_direction (bound end_ : nat) (ys yy : R) (g : list R) : outcome (list R) :=
    let d := map Ropp g in
    let! r := foldM loop1 (seq 0 bound) (end_, d, []) in
    let '(j, d, alphas) := r in
    let d := vscale (ys / yy) d in
    let! r := foldM (loop2 alphas) (seq 0 bound) (j, d) in
    Ok (snd r).
End Memory.

(** lbfgs.hpp:127-221 *)
Record lbfgs_state := LbfgsState {
  lb_x : list R; lb_fx : R; lb_g : list R; lb_d : list R; lb_step : R; lb_k : nat; lb_end : nat;
  lb_s : list (list R); lb_y : list (list R); lb_ys : list R; lb_pfx : list R }.

Section Lbfgs.
  Variable evaluate : list R -> outcome R.
  Variable gradient : list R -> outcome (list R).
  (** The chosen line search: x, fx, g, d, step, xp. *)
  Variable linesearch : list R -> R -> list R -> list R -> R -> list R -> outcome ls_result.
  Variable mem_size past max_iter : nat.
  Variable tol delta : R.

  (** lbfgs.hpp:109-115, 144-156 *)
  Definition converged (x g : list R) : bool :=
    let xnorm := if Rltb (norm2 x) 1 then 1 else norm2 x in
    Rleb (norm2 g / xnorm) tol.

  (** lbfgs.hpp:164-171: [None] to stop, otherwise the new [pfx]. *)
  Definition objective_test (k : nat) (fx : R) (pfx : list R) : outcome (option (list R)) :=
    if (past <=? k)%nat then
      let! i := modM k past in
      let! old := vget pfx i in
      let rate := Rabs (old - fx) / Rmax (Rabs fx) 1 in
      if Rltb rate delta then Ok None
      else Ok (Some (set_nth pfx i fx))
    else Ok (Some pfx).

  (** lbfgs.hpp:127-221: one turn of the loop; [inl x] when it breaks with that x. *)
  Definition lbfgs_turn (st : lbfgs_state) : outcome (list R + lbfgs_state) :=
    let xp := lb_x st in
    let gp := lb_g st in
    let! r := linesearch (lb_x st) (lb_fx st) (lb_g st) (lb_d st) (lb_step st) xp in
    match ls_code r with
    | None => Ok (inl xp)
    | Some _ =>
        let x := ls_x r in
        let fx := ls_fx r in
        let g := ls_g r in
        if converged x g then Ok (inl x)
        else
          let! t := objective_test (lb_k st) fx (lb_pfx st) in
          match t with
          | None => Ok (inl x)
          | Some pfx =>
              if negb (max_iter =? 0)%nat && (max_iter <? lb_k st + 1)%nat then Ok (inl x)
              else
                let! s := sub x xp in
                let! mem_s := set_colM (lb_s st) (lb_end st) s in
                let! y := sub g gp in
                let! mem_y := set_colM (lb_y st) (lb_end st) y in
                let! ys := dotM y s in
                let! yy := dotM y y in
                let! mem_ys := set_colM (lb_ys st) (lb_end st) ys in
                let bound := if (mem_size <=? lb_k st)%nat then mem_size else lb_k st in
                let! end_ := modM (lb_end st + 1) mem_size in
                let! d := new_direction mem_size mem_s mem_y mem_ys bound end_ ys yy g in
                Ok (inr (LbfgsState x fx g d 1 (lb_k st + 1) end_ mem_s mem_y mem_ys pfx))
          end
    end.
  (** lbfgs.hpp:58-224 *)
  Fixpoint lbfgs_loop (fuel : nat) (st : lbfgs_state) : outcome (list R) :=
    match fuel with
    | O => Fuel
    | S fuel' => let! r := lbfgs_turn st in match r with inl x => Ok x | inr st' => lbfgs_loop fuel' st' end
    end.

  (** lbfgs.hpp:58-224 after the choice of the line search.  [None]: returns at 117 without setting [opt_x_].
      [mem0] and [pfx0] are the contents of the freshly allocated memory.  [fuel] bounds the turns. *)
  Definition lbfgs (fuel : nat) (mem0 : list (list R) * list (list R) * list R) (pfx0 : list R) (x0 : list R) : outcome (option (list R)) :=
    let '(s0, y0, ys0) := mem0 in
    let! fx := evaluate x0 in
    let! g := gradient x0 in
    let! pfx := set_colM pfx0 0 fx in
    let d := map Ropp g in
    if converged x0 g then Ok None
    else
      let step := 1 / norm2 d in
      let! x := lbfgs_loop fuel (LbfgsState x0 fx g d step 1 0 s0 y0 ys0 pfx) in
      Ok (Some x).
End Lbfgs.

(** lbfgs.hpp:58-224 *)
Definition lbfgs_optimize (policy : ls_policy) (P : ls_params) (evaluate : list R -> outcome R) (gradient : list R -> outcome (list R))
  (mem_size past max_iter : nat) (tol delta : R) (fuel : nat) mem0 pfx0 x0 : outcome (option (list R)) :=
  match policy with
  | OtherPolicy => Throw InvalidArgument
  | _ => lbfgs evaluate gradient (line_search policy evaluate gradient P) mem_size past max_iter tol delta fuel mem0 pfx0 x0
  end.
