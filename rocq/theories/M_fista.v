(** Model of regreg/algorithms.py. The composite problem is given by pure functions: its methods are assumed to
    read only their argument and never to return a nan. Non-finite smooth values are +inf ([PInf]). Arithmetic is real. *)
From Coq Require Import Reals List Arith Bool.
From Verif Require Import Vec Spec.
Import ListNotations.
Local Open Scope R_scope.

(** The methods fit() calls: smooth_objective(mode='func'), smooth_objective(mode='grad'),
    nonsmooth_objective(x, check_feasibility), proximal_step(sq(L, center, linear, 0)), and the attribute lipschitz. *)
Record composite := mk_composite {
  c_smooth : vec -> ext; c_grad : vec -> vec; c_nonsmooth : vec -> bool -> ext; c_prox : R -> vec -> vec -> vec; c_lipschitz : R }.
(** Arguments of fit() and attributes of the algorithm object, regreg/algorithms.py:10-17, 45-56. restart = None is np.inf. *)
Record params := mk_params {
  p_tol : option R; p_min_its : option nat; p_max_its : option nat; p_FISTA : bool; p_start_step : R; p_restart : option nat;
  p_coef_stop : bool; p_monotonicity : bool; p_backtrack : bool }.
Definition alpha : R := 11 / 10.
(** x or default: a zero argument is replaced by the default, regreg/algorithms.py:88-90 *)
Definition or_real (x : option R) (d : R) : R := match x with Some r => if Req_EM_T r 0 then d else r | None => d end.
Definition or_nat (x : option nat) (d : nat) : nat := match x with Some (S k) => S k | _ => d end.
Definition tol_of (P : params) : R := or_real (p_tol P) (/ 10 ^ 5).
Definition min_of (P : params) : nat := or_nat (p_min_its P) 5.
Definition max_of (P : params) : nat := or_nat (p_max_its P) 10000.
(** Attributes of the algorithm object and of the composite, and the local variables of fit(). *)
Record fstate := mk_fstate {
  s_coefs : vec; s_working : vec; s_weight : R; s_step : R; s_attempt : bool; s_bad : nat; s_obj : ext; s_it : nat; s_hist : list ext }.

(** np.mod(itercount+1, restart) == 0; np.mod(k, 0) is 0 for integers *)
Definition restart_now (P : params) (it : nat) : bool :=
  match p_restart P with None => false | Some O => true | Some (S r) => Nat.eqb ((it + 1) mod (S r)) 0 end.
(** obj_rel_change < tol or obj_change < tol, regreg/algorithms.py:146-147, 172. inf - inf, inf/inf are nan: every comparison is false. *)
Definition small_change (tol : R) (working_obj proposed_obj : ext) : bool :=
  match working_obj, proposed_obj with
  | Fin w, Fin p => if Rlt_dec (Rabs (p - w) / Rmax (Rabs w) 1) tol then true else if Rlt_dec (Rabs (p - w)) tol then true else false
  | _, _ => false
  end.
(** working_obj < proposed_obj and obj_rel_change > 1e-10, regreg/algorithms.py:181 *)
Definition worse (working_obj proposed_obj : ext) : bool :=
  match working_obj, proposed_obj with
  | Fin w, Fin p => if Rlt_dec w p then (if Rlt_dec (/ 10 ^ 10) (Rabs (p - w) / Rmax (Rabs w) 1) then true else false) else false
  | Fin _, PInf => true
  | PInf, _ => false
  end.
(** coef_rel_change < tol, regreg/algorithms.py:149, 165 *)
Definition small_move (tol : R) (coefs proposed : vec) : bool :=
  if Rlt_dec (norm (vsub coefs proposed) / Rmax 1 (norm proposed)) tol then true else false.

(** The test of the backtracking loop, regreg/algorithms.py:247-260. With an infinite working value the left side of
    the relative change is inf and the bound is inf. *)
Definition step_ok (C : composite) (working working_grad proposed : vec) (step : R) : bool :=
  let d := vsub proposed working in
  match c_smooth C proposed, c_smooth C working with
  | PInf, _ => false
  | Fin _, PInf => true
  | Fin p, Fin w =>
      if Rlt_dec (/ 10 ^ 10) (Rabs (p - w) / Rmax 1 p) then
        (if Rle_dec p (w + dot d working_grad + (/ 2 / step) * (norm d * norm d)) then true else false)
      else
        (if Rle_dec (Rabs (dot d (vsub working_grad (c_grad C proposed)))) ((/ 2 / step) * (norm d * norm d)) then true else false)
  end.
(** while True: ..., regreg/algorithms.py:234-270; 1./0. raises ZeroDivisionError. Result: proposed_coefs, step, attempt_decrease. *)
Fixpoint backtrack_loop (fuel : nat) (C : composite) (working working_grad : vec) (step : R) (attempt : bool) : res (vec * R * bool) :=
  match fuel with
  | O => Err OutOfFuel
  | S fuel' =>
      if Req_EM_T step 0 then Err ZeroDivisionError else
      let proposed := c_prox C (1 / step) working working_grad in
      if step_ok C working working_grad proposed step then Ok (proposed, step, attempt)
      else
        let step' := step / alpha in
        if Rlt_dec 0 step' then backtrack_loop fuel' C working working_grad step' false else Err ValueError
  end.
(** backtrack, regreg/algorithms.py:228-270 *)
Definition backtrack (fuel : nat) (C : composite) (it : nat) (working : vec) (step : R) (attempt : bool) : res (vec * R * bool) :=
  let up := orb (Nat.eqb ((it + 1) mod 100) 0) attempt in
  backtrack_loop fuel C working (c_grad C working) (if up then step * alpha else step) (if up then true else attempt).

(** update_working_coefs, regreg/algorithms.py:217-226. Its test [if FISTA] reads the global class FISTA, which is true
    whatever the argument of fit(). Result: weight_new, working_coefs. *)
Definition update_working (flag : bool) (weight_old : R) (proposed coefs : vec) : R * vec :=
  if orb true flag then
    let weight_new := / 2 * (1 + sqrt (1 + 4 * (weight_old * weight_old))) in
    (weight_new, vadd proposed (vscal ((weight_old - 1) / weight_new) (vsub proposed coefs)))
  else (1, proposed).

Inductive outcome := Continue (s : fstate) | Stop (s : fstate).
(** One pass of the loop, regreg/algorithms.py:119-207. The restart of line 125 sets an unused local variable. *)
Definition iterate (fuel : nat) (P : params) (C : composite) (s : fstate) : res outcome :=
  let working := if restart_now P (s_it s) then s_coefs s else s_working s in
  let hist := s_hist s ++ [s_obj s] in
  rbind (if p_backtrack P then backtrack fuel C (s_it s) working (s_step s) (s_attempt s)
         else if Req_EM_T (c_lipschitz C) 0 then Err ZeroDivisionError
         else Ok (c_prox C (c_lipschitz C) working (c_grad C working), 1 / c_lipschitz C, s_attempt s)) (fun r =>
  let '(proposed, step, attempt) := r in
  let proposed_obj := ext_add (c_smooth C proposed) (c_nonsmooth C proposed false) in
  if andb (Nat.leb (min_of P) (s_it s)) (if p_coef_stop P then small_move (tol_of P) (s_coefs s) proposed else small_change (tol_of P) (s_obj s) proposed_obj) then
    Ok (Stop (mk_fstate (s_coefs s) proposed (s_weight s) step attempt (s_bad s) (s_obj s) (s_it s) hist))
  else
    let '(weight_new, working') := update_working (p_FISTA P) (s_weight s) proposed (s_coefs s) in
    if andb (Nat.ltb 1 (s_it s)) (andb (worse (s_obj s) proposed_obj) (p_monotonicity P)) then
      let bad := if Req_EM_T (s_weight s) 1 then S (s_bad s) else s_bad s in
      if andb (if Req_EM_T (s_weight s) 1 then true else false) (Nat.ltb 3 bad) then
        Ok (Stop (mk_fstate (s_coefs s) working' (s_weight s) step true bad (s_obj s) (s_it s) hist))
      else Ok (Continue (mk_fstate (s_coefs s) (s_coefs s) 1 step true bad (s_obj s) (s_it s + 1) hist))
    else Ok (Continue (mk_fstate proposed working' weight_new step attempt (s_bad s) proposed_obj (s_it s + 1) hist))).
(** while itercount < max_its, regreg/algorithms.py:117-207 *)
Fixpoint fista_loop (loops fuel : nat) (P : params) (C : composite) (s : fstate) : res fstate :=
  if Nat.ltb (s_it s) (max_of P) then
    match loops with
    | O => Err OutOfFuel
    | S loops' => rbind (iterate fuel P C s) (fun o => match o with Stop s' => Ok s' | Continue s' => fista_loop loops' fuel P C s' end)
    end
  else Ok s.
(** fit, regreg/algorithms.py:45-215: the step and attempt_decrease of an earlier fit are kept. Result: the final state;
    composite.coefs is [s_coefs], the returned history is [history]. *)
Definition fista_start (P : params) (C : composite) (coefs : vec) (old_step : option R) (attempt : bool) : fstate :=
  mk_fstate coefs coefs 1 (match old_step with Some r => r | None => p_start_step P end) attempt 0
    (ext_add (c_smooth C coefs) (c_nonsmooth C coefs true)) 0 [].
Definition fit (loops fuel : nat) (P : params) (C : composite) (coefs : vec) (old_step : option R) (attempt : bool) : res fstate :=
  fista_loop loops fuel P C (fista_start P C coefs old_step attempt).
(** objective_hist[:itercount] *)
Definition history (s : fstate) : list ext := firstn (s_it s) (s_hist s).
