(** Model of the lasso path: regreg/paths/lasso.py, strong_rules and default_lagrange_sequence of regreg/paths/__init__.py,
    regreg/paths/basil.py. Simplifications: arrays are real; weights are finite; the divisions of _check_KKT are real divisions
    (lagrange is positive in every theorem); the solver of the subproblems is a parameter, see [solver]; power_L, step sizes,
    tolerances passed to the solver, verbose output and gc are left out (they only influence the solver); np.bool, np.int are
    bool, int. *)
From Coq Require Import Reals List Arith Bool.
From Verif Require Import M_affine Vec Spec M_quad M_prox M_semi M_weighted M_loss M_problem M_cv.
Import ListNotations.
Local Open Scope R_scope.

Definition gtb (a b : R) : bool := if Rlt_dec b a then true else false.
Definition is0 (a : R) : bool := if Req_EM_T a 0 then true else false.
(** lasso_path.__init__, regreg/paths/lasso.py:21-72: saturated_loss.smooth_objective in modes 'grad' and 'func', X (dot and T.dot),
    penalty.weights, elastic_net_param, alpha *)
Record lpath := mk_lpath { lp_grad : vec -> vec; lp_func : vec -> R; lp_X : transform; lp_weights : vec; lp_enet : vec; lp_alpha : R }.
Definition lp_size (P : lpath) : nat := t_in (lp_X P).
(** subsample_columns, regreg/paths/__init__.py:9-18: the columns X.dot(e_j); [mat_tvec]: the dot of the matrix they form *)
Definition subsample_columns (X : transform) (cols : list nat) : list vec := map (fun j => t_lin X (unit_vec (t_in X) j)) cols.
(** enet_grad, regreg/paths/lasso.py:207-221, entry by entry; [subset]: the positions asked for *)
Definition enet_entry (P : lpath) (solution : vec) (lagrange : R) (j : nat) : R :=
  let g := (1 - lp_alpha P) * nth j solution 0 * nth j (lp_enet P) 0 in
  if is0 (nth j (lp_weights P) 0) then g else g * lagrange.
Definition enet_grad (P : lpath) (solution : vec) (lagrange : R) (subset : list nat) : vec := map (enet_entry P solution lagrange) subset.
(** full_gradient plus enet_grad, regreg/paths/__init__.py:64-73, 313-318 *)
Definition path_gradient (P : lpath) (solution linpred : vec) (lagrange : R) : vec :=
  vadd (t_adj (lp_X P) (lp_grad P linpred)) (enet_grad P solution lagrange (seq 0 (lp_size P))).

(** _check_KKT, regreg/paths/lasso.py:340-374. np.mean of the positive weights: None is nan *)
Definition mean_weight (w : vec) : option R :=
  let pos := filter (fun a => gtb a 0) w in if Nat.eqb (length pos) 0 then None else Some (vsum pos / INR (length pos)).
Definition active_fails (w g s : vec) (lagrange tol : R) (j : nat) : bool :=
  let a := nth j w 0 in
  if is0 a then match mean_weight w with Some m => gtb (Rabs (nth j g 0 / m)) tol | None => false end
  else if negb (is0 (nth j s 0)) && gtb a 0 then gtb (Rabs (nth j g 0 / (lagrange * a) + np_sign (nth j s 0))) tol
  else false.
Definition inactive_term (w g s : vec) (lagrange : R) (j : nat) : R :=
  if is0 (nth j s 0) && gtb (nth j w 0) 0 then Rabs (nth j g 0 / (lagrange * nth j w 0)) else 0.
(** scipy.stats.rankdata, average ranks *)
Definition rankdata (v : vec) (j : nat) : R :=
  INR (length (filter (fun a => gtb (nth j v 0) a) v)) + (INR (length (filter (fun a => is0 (a - nth j v 0)) v)) + 1) / 2.
(** inactive_ranks 361-364: -1 where nothing fails *)
Definition inactive_ranks (w g s : vec) (lagrange tol : R) : vec :=
  let terms := map (inactive_term w g s lagrange) (seq 0 (length s)) in
  map (fun j => if Rle_dec (nth j terms 0) (1 + tol) then -1 else INR (length s) - rankdata terms j) (seq 0 (length s)).
Definition check_KKT (w g s : vec) (lagrange tol : R) : list bool * vec :=
  (map (active_fails w g s lagrange tol) (seq 0 (length s)), inactive_ranks w g s lagrange tol).
Definition kkt_tol : R := / 100.
(** if check_active: A + (ranks >= 0) else ranks >= 0, regreg/paths/__init__.py:300-303, 323-326 *)
Definition failing (check_active : bool) (w g s : vec) (lagrange : R) : list bool :=
  let '(A, ranks) := check_KKT w g s lagrange kkt_tol in
  map (fun p => (check_active && fst p) || (if Rle_dec 0 (snd p) then true else false)) (combine A ranks).
(** _strong_set, regreg/paths/lasso.py:298-311: an unpenalized feature has an infinite scaled gradient *)
Definition strong_mask (w g : vec) (lagrange_cur lagrange_new : R) : list bool :=
  map (fun j => if is0 (nth j w 0) then true else gtb (Rabs (nth j g 0) / nth j w 0) (2 * lagrange_new - lagrange_cur)) (seq 0 (length w)).

(** solve_subproblem, regreg/paths/lasso.py:177-205: call number, warm start, candidate set, lagrange value; the call number stands
    for everything else the answer may depend on *)
Definition solver := nat -> vec -> list nat -> R -> vec.
(** sorted(set(a + b)) *)
Definition union (p : nat) (a b : list nat) : list nat := filter (fun i => mem i a || mem i b) (seq 0 p).
Record pstate := mk_pstate { s_sol : vec; s_gsol : vec; s_fail : list bool; s_set : list nat; s_calls : nat }.
(** One pass of the loop of strong_rules, regreg/paths/__init__.py:255-339: solved, the restricted solution, its linear predictor, state *)
Definition try_once (P : lpath) (S : solver) (check_active : bool) (lcur lnew : R) (st : pstate) : bool * vec * vec * pstate :=
  let p := lp_size P in
  let set := union p (s_set st) (picked (s_fail st)) in
  let sub := S (s_calls st) (s_sol st) set lnew in
  let linpred := mat_tvec (t_out (lp_X P)) (subsample_columns (lp_X P) set) sub in
  let sat := lp_grad P linpred in
  let sol := M_affine.scatter set sub (s_sol st) in
  let strong := picked (strong_mask (lp_weights P) (s_gsol st) (lcur * lp_alpha P) (lnew * lp_alpha P)) in
  let strong_grad := vadd (mat_vec (subsample_columns (lp_X P) strong) sat) (enet_grad P sol lnew strong) in
  let strong_failing := failing check_active (gather strong (lp_weights P)) strong_grad (gather strong sol) (lp_alpha P * lnew) in
  if existsb (fun b => b) strong_failing then
    let hit := map fst (filter snd (combine strong strong_failing)) in
    (false, sub, linpred, mk_pstate sol (s_gsol st) (map (fun j => nth j (s_fail st) false || mem j hit) (seq 0 p)) set (Datatypes.S (s_calls st)))
  else
    let grad := path_gradient P sol linpred lnew in
    let fail := failing check_active (lp_weights P) grad sol (lp_alpha P * lnew) in
    (negb (existsb (fun b => b) fail), sub, linpred, mk_pstate sol grad fail set (Datatypes.S (s_calls st))).
(** What is kept of a lagrange value: beta, whether it was given up with a warning, the last candidate set and its solution *)
Record point := mk_point { pt_lagrange : R; pt_beta : vec; pt_warned : bool; pt_set : list nat; pt_sub : vec; pt_tries : nat }.
(** The loop while True, 255-358 *)
Fixpoint tries (fuel : nat) (P : lpath) (S : solver) (check_active : bool) (max_tries : nat) (lcur lnew : R) (num : nat) (st : pstate) : res (point * pstate) :=
  match fuel with
  | O => Err OutOfFuel
  | Datatypes.S fuel' =>
      let '(ok, sub, linpred, st1) := try_once P S check_active lcur lnew st in
      let num1 := Datatypes.S num in
      if ok then Ok (mk_point lnew (s_sol st1) false (s_set st1) sub num1, st1) else
      let every5 := Nat.eqb (num1 mod 5) 0 in
      let st2 := if every5 then
                   let sol := M_affine.scatter (s_set st1) sub (zeros (lp_size P)) in
                   mk_pstate sol (path_gradient P sol linpred lnew) (s_fail st1) (s_set st1) (s_calls st1)
                 else st1 in
      if every5 && Nat.leb max_tries num1 then Ok (mk_point lnew (s_sol st2) true (s_set st2) sub num1, st2) else
      tries fuel' P S check_active max_tries lcur lnew num1
        (mk_pstate (s_sol st2) (s_gsol st2) (s_fail st2) (union (lp_size P) (s_set st2) (picked (s_fail st2))) (s_calls st2))
  end.
(** strong_rules, 217-372; the first entry of beta is the initial solution *)
Fixpoint run_path (fuel : nat) (P : lpath) (S : solver) (check_active : bool) (max_tries : nat) (lcur : R) (ls : list R) (st : pstate) : res (list point) :=
  match ls with
  | [] => Ok []
  | lnew :: ls' => rbind (tries fuel P S check_active max_tries lcur lnew 0 st) (fun r =>
                   rbind (run_path fuel P S check_active max_tries lnew ls' (snd r)) (fun pts => Ok (fst r :: pts)))
  end.
(** updated_ever_active never stores anything (lasso.py:223-230), so the candidate set starts empty *)
Definition start_state (P : lpath) (solution grad : vec) : pstate := mk_pstate solution grad (repeat false (lp_size P)) [] 0.
Definition strong_rules (fuel : nat) (P : lpath) (S : solver) (check_active : bool) (max_tries : nat) (lagrange_seq : list R) (solution grad : vec) : res (list point) :=
  match lagrange_seq with
  | [] => Ok []
  | l0 :: ls => run_path fuel P S check_active max_tries l0 ls (start_state P solution grad)
  end.
Definition betas (solution : vec) (pts : list point) : list vec := solution :: map pt_beta pts.

(** np.linspace *)
Definition linspace (a b : R) (n : nat) : list R :=
  match n with 1%nat => [a] | _ => map (fun i => a + INR i * ((b - a) / INR (n - 1))) (seq 0 n) end.
(** default_lagrange_sequence, regreg/paths/__init__.py:206-215; penalty.conjugate of a weighted l1 norm is a weighted sup norm *)
Definition default_lagrange_sequence (w : vec) (null_grad : vec) (proportion : R) (nstep : nat) (alpha : R) : res (list R) :=
  rbind (w_seminorm WSup (map invw (map Fin w)) null_grad 1 false) (fun m =>
  match m with
  | Fin m => Ok (map (fun a => a / alpha) (rev (map (fun t => m * exp t) (linspace (ln proportion) 0 nstep))))
  | PInf => Err NaNResult
  end).

(** basil_inner_loop, regreg/paths/basil.py:4-104. The loop over the values 61-97: the pairs solved, grad_solution as the loop leaves it,
    the failing mask if it stopped early, number of calls *)
Fixpoint basil_values (P : lpath) (S : solver) (check_active : bool) (set : list nat) (sol grad : vec) (calls : nat) (ls : list R) : list (R * vec) * vec * option (list bool) * nat :=
  match ls with
  | [] => ([], grad, None, calls)
  | l :: ls' =>
      let sub := S calls sol set l in
      let linpred := mat_tvec (t_out (lp_X P)) (subsample_columns (lp_X P) set) sub in
      let sol1 := M_affine.scatter set sub sol in
      let grad1 := path_gradient P sol1 linpred l in
      let fail := failing check_active (lp_weights P) grad1 sol1 (lp_alpha P * l) in
      if existsb (fun b => b) fail then ([], grad1, Some fail, Datatypes.S calls)
      else let '(out, g, f, c) := basil_values P S check_active set sol1 grad1 (Datatypes.S calls) ls' in ((l, sol1) :: out, g, f, c)
  end.
Definition unpenalized (P : lpath) : list nat := filter (fun j => is0 (nth j (lp_weights P) 0)) (seq 0 (lp_size P)).
Fixpoint minimum (l : list R) : R := match l with [] => 0 | [a] => a | a :: r => Rmin a (minimum r) end.
(** the candidate set 34-59 *)
Definition basil_set (P : lpath) (step_nvar : nat) (sol grad : vec) (ls : list R) (cand : list nat) : list nat :=
  let ranks := snd (check_KKT (lp_weights P) grad sol (lp_alpha P * minimum ls) kkt_tol) in
  let nfail := length (filter (fun r => if Rle_dec 0 r then true else false) ranks) in
  let M := Nat.min step_nvar nfail in
  let first := filter (fun j => if Rle_dec 0 (nth j ranks 0) then gtb (INR M) (nth j ranks 0) else false) (seq 0 (lp_size P)) in
  union (lp_size P) (union (lp_size P) first (unpenalized P)) cand.
Definition active_set (sol : vec) : list nat := filter (fun j => negb (is0 (nth j sol 0))) (seq 0 (length sol)).
(** returned: pairs, the gradient array of the caller after the call (it is written in place, 80-82), candidate set, calls *)
Definition basil_inner (P : lpath) (S : solver) (check_active : bool) (step_nvar : nat) (sol grad : vec) (calls : nat) (ls : list R) (cand : list nat) : list (R * vec) * vec * list nat * nat :=
  let set := basil_set P step_nvar sol grad ls cand in
  let '(out, g, f, c) := basil_values P S check_active set sol grad calls ls in
  let p := lp_size P in
  let ever := fold_left (fun e r => union p e (active_set (snd r))) out (unpenalized P) in
  (out, g, match f with None => ever | Some fail => union p (union p ever set) (picked fail) end, c).
(** np.sum(lagrange_seq >= np.min(lagrange_solved)), lagrange_solved = [inf] + solved *)
Definition basil_start (lseq : list R) (solved : list R) : nat :=
  match solved with [] => 0%nat | _ => length (filter (fun l => if Rle_dec (minimum solved) l then true else false) lseq) end.
(** basil 106-145: cur_data stays the caller's pair (the update goes to another name, cur_soln) *)
Fixpoint basil_loop (fuel : nat) (P : lpath) (S : solver) (check_active : bool) (step_nvar step_lagrange : nat) (lseq : list R) (sol grad : vec)
  (done : list (R * vec)) (cand : list nat) (calls : nat) : res (list (R * vec)) :=
  match fuel with
  | O => Err OutOfFuel
  | Datatypes.S fuel' =>
      let ls := firstn step_lagrange (skipn (basil_start lseq (map fst done)) lseq) in
      match ls with
      | [] => Ok done
      | _ => let '(out, g, cand', c) := basil_inner P S check_active step_nvar sol grad calls ls cand in
             basil_loop fuel' P S check_active step_nvar step_lagrange lseq sol g (done ++ out) cand' c
      end
  end.
(** check_active is not passed on by basil *)
Definition basil (fuel : nat) (P : lpath) (S : solver) (step_nvar step_lagrange : nat) (lseq : list R) (sol grad : vec) : res (list vec) :=
  rmap (map snd) (basil_loop fuel P S false step_nvar step_lagrange lseq sol grad [] [] 0).
