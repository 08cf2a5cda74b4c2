(** Model of the group lasso and sparse group lasso paths: regreg/paths/group_lasso.py, regreg/paths/sparse_group_lasso.py, and strong_rules of
    regreg/paths/__init__.py run on them. Simplifications: those of M_path; feature weights are finite; the empty array is an array like any other;
    a group is named by its label. [gq_base] keeps the smooth part; its lp_weights only say which features _penalized_vars marks. *)
From Coq Require Import Reals List Arith Bool ZArith.
From Verif Require Import M_affine Vec Spec M_quad M_prox M_semi M_shift M_mode M_mixed M_weighted M_loss M_problem M_cv M_path M_group M_sgl.
Import ListNotations.
Local Open Scope R_scope.

(** What strong_rules uses of a path object: strong_set (a mask over the sorted group ids) and check_KKT with the penalty restricted to some features *)
Record gpath := mk_gpath {
  gq_base : lpath;
  gq_groups : list Z;
  gq_strong : vec -> R -> R -> list bool;
  gq_check : list nat -> vec -> vec -> R -> res (list bool * vec) }.
Definition gq_size (P : gpath) : nat := lp_size (gq_base P).
(** _candidate_bool, regreg/paths/group_lasso.py:313-320, sparse_group_lasso.py:295-302: the features of the groups *)
Definition zmem (g : Z) (l : list Z) : bool := existsb (Z.eqb g) l.
Definition candidates (groups : list Z) (set : list Z) : list nat := filter (fun j => zmem (nth j groups 0%Z) set) (seq 0 (length groups)).
(** the ids where a mask over the sorted ids is true: updated_ever_active, group_lasso.py:227-238 (it never stores what it computes), strong_set 179-183 *)
Definition chosen (groups : list Z) (mask : list bool) : list Z := map fst (filter snd (combine (g_ids groups) mask)).
(** sorted(set(a + b)) *)
Definition zunion (a b : list Z) : list Z := sorted_unique (a ++ b).
(** labels groups[vars] *)
Definition labels_at (groups : list Z) (vars : list nat) : list Z := map (fun j => nth j groups 0%Z) vars.

(** _check_KKT, regreg/paths/group_lasso.py:369-404 *)
Definition mean_of (v : vec) : R := vsum v / INR (length v).
Definition g_active (w : R) (s : vec) : bool := negb (is0 (norm s / w)) && gtb w 0.
Definition g_active_fails (groups : list Z) (weights : Z -> option R) (grad s : vec) (lagrange tol : R) (g : Z) : bool :=
  let w := weight_of weights groups g in let sg := zpick g groups s in let gg := zpick g groups grad in
  if g_active w sg then gtb (norm (vadd (map (fun a => a * lagrange * w / norm sg) sg) gg)) tol
  else if is0 w then gtb (norm gg) (tol * mean_of (g_warr groups weights))
  else false.
Definition g_inactive_term (groups : list Z) (weights : Z -> option R) (grad s : vec) (lagrange : R) (g : Z) : R :=
  let w := weight_of weights groups g in
  if g_active w (zpick g groups s) then 0 else if is0 w then 0 else norm (zpick g groups grad) / (lagrange * w).
(** inactive_ranks 401-402, sparse_group_lasso.py:420-421: -1 where nothing fails *)
Definition ranks_of (terms : vec) (tol : R) : vec :=
  map (fun j => if Rle_dec (nth j terms 0) (1 + tol) then -1 else INR (length terms) - rankdata terms j) (seq 0 (length terms)).
Definition g_check (groups : list Z) (weights : Z -> option R) (grad s : vec) (lagrange tol : R) : list bool * vec :=
  (map (g_active_fails groups weights grad s lagrange tol) (g_ids groups), ranks_of (map (g_inactive_term groups weights grad s lagrange) (g_ids groups)) tol).
(** _strong_set, group_lasso.py:322-334 *)
Definition g_strong (groups : list Z) (weights : Z -> option R) (grad : vec) (lagrange_cur lagrange_new : R) : list bool :=
  map (fun t => match t with Fin t => gtb t (2 * lagrange_new - lagrange_cur) | PInf => true end) (g_terms true groups weights grad).
(** group_lasso_path.__init__ 24-58: [weights] is the dictionary given; restricted_penalty 268-275 *)
Definition group_path (grad : vec -> vec) (func : vec -> R) (X : transform) (groups : list Z) (weights : Z -> option R) (enet : vec) (alpha : R) : gpath :=
  let filled := filled weights groups in
  mk_gpath (mk_lpath grad func X (map (weight_of filled groups) groups) enet alpha) groups (g_strong groups filled)
    (fun vars g s lam => Ok (g_check (labels_at groups vars) filled g s lam kkt_tol)).
(** unpenalized 241-263: the ids with weight zero *)
Definition g_unpenalized (groups : list Z) (weights : Z -> option R) : list Z := filter (fun g => is0 (weight_of weights groups g)) (g_ids groups).
(** default_lagrange_sequence, regreg/paths/__init__.py:206-215 *)
Definition g_lagrange_sequence (groups : list Z) (weights : Z -> option R) (null_grad : vec) (proportion : R) (nstep : nat) (alpha : R) : res (list R) :=
  rbind (g_seminorm true groups weights null_grad 1) (fun m =>
  match m with
  | Fin m => Ok (map (fun a => a / alpha) (rev (map (fun t => m * exp t) (linspace (ln proportion) 0 nstep))))
  | PInf => Err NaNResult
  end).

(** sparse_group_lasso.py. The penalty after __init__ 46-50: group weights times 1 - l1_alpha, feature weights times l1_alpha; set_weight raises
    ValueError for a label that is in the dictionary and not in groups: [extra] says whether there is one *)
Definition sg_weights (groups : list Z) (weights : Z -> option R) (l1_alpha : R) (g : Z) : option R :=
  option_map (fun w => (1 - l1_alpha) * w) (filled weights groups g).
Definition sg_lasso (lw : vec) (l1_alpha : R) : vec := map (fun a => a * l1_alpha) lw.
(** unpenalized 96-120: w == (0 + np.any(...)) *)
Definition sg_unpenalized_group (groups : list Z) (lw : vec) (weights : Z -> option R) (g : Z) : bool :=
  is0 (weight_of weights groups g - (if existsb is0 (zpick g groups lw) then 1 else 0)).
Definition sg_unpenalized (groups : list Z) (lw : vec) (weights : Z -> option R) : list Z := filter (sg_unpenalized_group groups lw weights) (g_ids groups).
(** _check_KKT 364-423. First group is active: None - x is a TypeError; a comparison with nan is false ([None]) *)
Definition sg_active_check (point lw : vec) (w : R) (s : vec) (lagrange tol : R) (fuel : nat) : res bool :=
  rbind (gauge_function_dual_strong point lw w fuel) (fun r =>
  match r with
  | (v, Some (l1, l2)) =>
      let weak := match v with Fin a => gtb (lagrange * (1 - tol)) a | PInf => false end in
      let nonz := filter (fun p => negb (is0 (fst p))) (combine s (vzip Rminus l1 (vzip (fun a b => a * np_sign b * lagrange) lw s))) in
      let sign := gtb (norm (map snd nonz)) (tol * Rmax 1 (norm s)) in
      let parallel := match l2 with
        | None => false
        | Some l2 => if is0 (norm l2) then false else if is0 (norm s) then false
                     else gtb (norm (vsub (map (fun a => a / norm l2) l2) (map (fun a => a / norm s) s))) tol end in
      Ok (weak || sign || parallel)
  | (_, None) => Err TypeError
  end).
(** the two results of one group; the name sqlasso does not exist *)
Definition sg_one (groups : list Z) (lw : vec) (weights : Z -> option R) (grad s : vec) (lagrange tol : R) (fuel : nat) (g : Z) : res (bool * ext) :=
  let w := weight_of weights groups g in let l := zpick g groups lw in let sg := zpick g groups s in let point := vopp (zpick g groups grad) in
  if gtb (norm sg * w + vsum (vabs (vmul sg l))) (/ 10 ^ 6 * norm s) then rmap (fun b => (b, Fin 0)) (sg_active_check point l w sg lagrange tol fuel)
  else if gtb (vsum l + w) 0 then rmap (fun r => (false, match fst r with Fin a => Fin (a / lagrange) | PInf => PInf end)) (gauge_function_dual_strong point l w fuel)
  else Err NameError.
Fixpoint rall {A B} (f : A -> res B) (l : list A) : res (list B) :=
  match l with [] => Ok [] | a :: l' => rbind (f a) (fun b => rbind (rall f l') (fun r => Ok (b :: r))) end.
(** an infinite dual norm fails; its rank is that of a value above the others *)
Definition ext_terms (l : list ext) : vec := let m := fold_right (fun e r => match e with Fin a => Rmax (Rabs a) r | PInf => r end) 0 l in map (fun e => match e with Fin a => a | PInf => m + 3 end) l.
Definition sg_check (groups : list Z) (lw : vec) (weights : Z -> option R) (grad s : vec) (lagrange tol : R) (fuel : nat) : res (list bool * vec) :=
  rmap (fun rs => (map fst rs, ranks_of (ext_terms (map snd rs)) tol)) (rall (sg_one groups lw weights grad s lagrange tol fuel) (g_ids groups)).
(** _strong_set 304-325 *)
Definition sg_strong (groups : list Z) (lw : vec) (weights : Z -> option R) (grad : vec) (lagrange_cur lagrange_new : R) : list bool :=
  map (fun g => negb (inside_set_strong (zpick g groups grad) (2 * lagrange_new - lagrange_cur) (zpick g groups lw) (weight_of weights groups g))) (g_ids groups).
(** __init__ 27-93: _penalized_vars is all False, so enet_grad and enet_loss take every feature for unpenalized *)
Definition sparse_group_path (grad : vec -> vec) (func : vec -> R) (X : transform) (groups : list Z) (lw : vec) (weights : Z -> option R) (enet : vec) (alpha l1_alpha : R) (fuel : nat) : gpath :=
  let ws := sg_weights groups weights l1_alpha in let ls := sg_lasso lw l1_alpha in
  mk_gpath (mk_lpath grad func X (zeros (length groups)) enet alpha) groups (sg_strong groups ls ws)
    (fun vars g s lam => sg_check (labels_at groups vars) (gather vars ls) ws g s lam kkt_tol fuel).
(** subsample: group_lasso.py:94-121 gives the constructor penalty.weights; sparse_group_lasso.py:124-158 penalty.lasso_weights, penalty.weights and
    l1_alpha once more. What changes is the loss *)
Definition group_subsample (grad' : vec -> vec) (func' : vec -> R) (X : transform) (groups : list Z) (weights : Z -> option R) (enet : vec) (alpha : R) : gpath :=
  group_path grad' func' X groups (filled weights groups) enet alpha.
Definition sparse_group_subsample (grad' : vec -> vec) (func' : vec -> R) (X : transform) (groups : list Z) (lw : vec) (weights : Z -> option R) (enet : vec) (alpha l1_alpha : R) (fuel : nat) : gpath :=
  sparse_group_path grad' func' X groups (sg_lasso lw l1_alpha) (sg_weights groups weights l1_alpha) enet alpha l1_alpha fuel.

(** ** strong_rules, regreg/paths/__init__.py:217-372 *)
(** if check_active: A + (ranks >= 0) else ranks >= 0 *)
Definition failing_mask (check_active : bool) (r : list bool * vec) : list bool :=
  map (fun p => (check_active && fst p) || (if Rle_dec 0 (snd p) then true else false)) (combine (fst r) (snd r)).
(** delta[strong_idx] = strong_failing *)
Fixpoint fill (mask values : list bool) : list bool :=
  match mask with
  | [] => []
  | true :: mask' => hd false values :: fill mask' (tl values)
  | false :: mask' => false :: fill mask' values
  end.
Definition mask_or (a b : list bool) : list bool := map (fun p => fst p || snd p) (combine a b).
Record gstate := mk_gstate { gs_sol : vec; gs_grad : vec; gs_fail : list bool; gs_set : list Z; gs_calls : nat }.
(** One pass of the loop 255-339; the solver is given the features of the candidate groups *)
Definition gtry (P : gpath) (S : solver) (check_active : bool) (lcur lnew : R) (st : gstate) : res (bool * vec * vec * gstate) :=
  let B := gq_base P in let X := lp_X B in
  let set := zunion (gs_set st) (chosen (gq_groups P) (gs_fail st)) in
  let vars := candidates (gq_groups P) set in
  let sub := S (gs_calls st) (gs_sol st) vars lnew in
  let linpred := mat_tvec (t_out X) (subsample_columns X vars) sub in
  let sat := lp_grad B linpred in
  let sol := M_affine.scatter vars sub (gs_sol st) in
  let strong := gq_strong P (gs_grad st) (lcur * lp_alpha B) (lnew * lp_alpha B) in
  let svars := candidates (gq_groups P) (chosen (gq_groups P) strong) in
  let sgrad := vadd (mat_vec (subsample_columns X svars) sat) (enet_grad B sol lnew svars) in
  rbind (gq_check P svars sgrad (gather svars sol) (lp_alpha B * lnew)) (fun r =>
  let sfail := failing_mask check_active r in
  if existsb (fun b => b) sfail then
    Ok (false, sub, linpred, mk_gstate sol (gs_grad st) (mask_or (gs_fail st) (fill strong sfail)) set (Datatypes.S (gs_calls st)))
  else
    let grad := path_gradient B sol linpred lnew in
    rbind (gq_check P (seq 0 (gq_size P)) grad sol (lp_alpha B * lnew)) (fun r =>
    let fail := failing_mask check_active r in
    Ok (negb (existsb (fun b => b) fail), sub, linpred, mk_gstate sol grad fail set (Datatypes.S (gs_calls st))))).
(** What is kept of a lagrange value *)
Record gpoint := mk_gpoint { gp_lagrange : R; gp_beta : vec; gp_warned : bool; gp_set : list Z; gp_sub : vec; gp_tries : nat }.
Fixpoint gtries (fuel : nat) (P : gpath) (S : solver) (check_active : bool) (max_tries : nat) (lcur lnew : R) (num : nat) (st : gstate) : res (gpoint * gstate) :=
  match fuel with
  | O => Err OutOfFuel
  | Datatypes.S fuel' =>
      rbind (gtry P S check_active lcur lnew st) (fun r =>
      let '(ok, sub, linpred, st1) := r in
      let num1 := Datatypes.S num in
      if ok then Ok (mk_gpoint lnew (gs_sol st1) false (gs_set st1) sub num1, st1) else
      let every5 := Nat.eqb (num1 mod 5) 0 in
      let st2 := if every5 then
                   let sol := M_affine.scatter (candidates (gq_groups P) (gs_set st1)) sub (zeros (gq_size P)) in
                   mk_gstate sol (path_gradient (gq_base P) sol linpred lnew) (gs_fail st1) (gs_set st1) (gs_calls st1)
                 else st1 in
      if every5 && Nat.leb max_tries num1 then Ok (mk_gpoint lnew (gs_sol st2) true (gs_set st2) sub num1, st2) else
      gtries fuel' P S check_active max_tries lcur lnew num1
        (mk_gstate (gs_sol st2) (gs_grad st2) (gs_fail st2) (zunion (gs_set st2) (chosen (gq_groups P) (gs_fail st2))) (gs_calls st2)))
  end.
Fixpoint grun (fuel : nat) (P : gpath) (S : solver) (check_active : bool) (max_tries : nat) (lcur : R) (ls : list R) (st : gstate) : res (list gpoint) :=
  match ls with
  | [] => Ok []
  | lnew :: ls' => rbind (gtries fuel P S check_active max_tries lcur lnew 0 st) (fun r =>
                   rbind (grun fuel P S check_active max_tries lnew ls' (snd r)) (fun pts => Ok (fst r :: pts)))
  end.
Definition gstart (P : gpath) (solution grad : vec) : gstate := mk_gstate solution grad (repeat false (length (g_ids (gq_groups P)))) [] 0.
Definition group_strong_rules (fuel : nat) (P : gpath) (S : solver) (check_active : bool) (max_tries : nat) (lagrange_seq : list R) (solution grad : vec) : res (list gpoint) :=
  match lagrange_seq with
  | [] => Ok []
  | l0 :: ls => grun fuel P S check_active max_tries l0 ls (gstart P solution grad)
  end.
