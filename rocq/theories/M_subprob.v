(** Model of the problems the path objects hand to the solver: solve_subproblem, _restricted_problem, _restricted_elastic_net and the null fit of the
    constructors of regreg/paths/lasso.py, group_lasso.py, sparse_group_lasso.py, sparse_group_block.py, and warm_start of regreg/paths/__init__.py.
    Simplifications: those of M_path and M_gpath; the loss has no quadratic of its own; the numerical solver is a parameter that is given the objective
    of the problem and the starting point; matrices are flattened by rows. *)
From Coq Require Import Reals List Arith Bool ZArith.
From Verif Require Import M_affine Vec Spec M_quad M_prox M_semi M_shift M_mode M_weighted M_loss M_smooth M_problem M_cv M_path M_group M_sgl SpecBlock M_block M_sgb M_gpath M_sbpath M_mpath.
Import ListNotations.
Local Open Scope R_scope.

(** smooth_objective in modes 'func' and 'grad' *)
Record smooth := mk_smooth { sm_func : vec -> R; sm_grad : vec -> vec }.
(** affine_smooth(saturated_loss, X_candidate) where X_candidate is the matrix with the columns asked for, regreg/paths/lasso.py:334-335, regreg/paths/group_lasso.py:361-367,
    regreg/paths/sparse_group_lasso.py:353-360; evaluation: regreg/smooth/__init__.py:205-252 *)
Definition restricted_loss (P : lpath) (vars : list nat) : smooth :=
  let cols := subsample_columns (lp_X P) vars in let m := t_out (lp_X P) in
  mk_smooth (fun c => lp_func P (mat_tvec m cols c)) (fun c => mat_vec cols (lp_grad P (mat_tvec m cols c))).
(** _restricted_elastic_net, regreg/paths/lasso.py:313-325, regreg/paths/group_lasso.py:336-350, regreg/paths/sparse_group_block.py:464-476: the diagonal. What is penalized is read
    off the weights of the path (for M_gpath see gq_base) *)
Definition enet_params (P : lpath) (lagrange : R) (vars : option (list nat)) : vec :=
  let params := map (fun e => e * (1 - lp_alpha P)) (lp_enet P) in
  let params := map (fun q => if is0 (snd q) then fst q else fst q * lagrange) (combine params (lp_weights P)) in
  match vars with Some v => gather v params | None => params end.
(** quadratic_loss(new_params.shape, new_params, Qdiag=True) *)
Definition diag_loss (q : vec) : smooth := mk_smooth (quad_func (Some (vmul q)) 1 None) (quad_grad (Some (vmul q)) 1 None).
(** smooth_sum([a, b]), regreg/smooth/__init__.py:302-372, with weights np.ones *)
Definition smooth_sum (a b : smooth) : smooth :=
  mk_smooth (fun x => acc_func (const_vec 2 1) [sm_func a x; sm_func b x]) (fun x => acc_grad (length x) (const_vec 2 1) [sm_grad a x; sm_grad b x]).
(** sub_loss, regreg/paths/lasso.py:192-196, regreg/paths/group_lasso.py:201-204, regreg/paths/sparse_group_lasso.py:237-241, regreg/paths/sparse_group_block.py:244-249 *)
Definition sub_loss (P : lpath) (vars : list nat) (lagrange : R) : smooth :=
  let loss := restricted_loss P vars in
  if Rlt_dec (lp_alpha P) 1 then smooth_sum loss (diag_loss (enet_params P lagrange (Some vars))) else loss.
(** simple_problem(loss, penalty).objective, regreg/problems/composite.py:82-83: the penalty is its seminorm *)
Definition objective (f : smooth) (pen : vec -> res ext) (c : vec) : res ext := rmap (ext_add (Fin (sm_func f c))) (pen c).

(** The penalties: weighted_l1norm(lasso_weights[candidate_set] * alpha, lagrange=1.), regreg/paths/lasso.py:185-191, 336 *)
Definition lasso_pen (P : lpath) (set : list nat) (lagrange : R) (c : vec) : res ext :=
  w_seminorm WL1 (map Fin (map (fun a => a * lp_alpha P) (gather set (map (Rmult lagrange) (lp_weights P))))) c 1 false.
(** group_lasso(groups[candidate_bool], weights=copy(group_weights), lagrange=alpha), regreg/paths/group_lasso.py:194-200, 362-364 *)
Definition group_pen (B : lpath) (groups : list Z) (weights : Z -> option R) (vars : list nat) (lagrange : R) (c : vec) : res ext :=
  g_seminorm false (labels_at groups vars) weights c (lp_alpha B * lagrange).
(** sparse_group_lasso(...), regreg/paths/sparse_group_lasso.py:228-236, 354-357 *)
Definition sparse_pen (B : lpath) (groups : list Z) (lw : vec) (weights : Z -> option R) (vars : list nat) (lagrange : R) (c : vec) : res ext :=
  s_seminorm (labels_at groups vars) (map Fin (gather vars lw)) weights c (lp_alpha B * lagrange) false.
(** sparse_group_block(X_candidate.input_shape, l1_weight, l2_weight, lagrange=alpha), regreg/paths/sparse_group_block.py:237-243, 487-493 *)
Definition block_sub_pen (B : lpath) (c : nat) (l1 l2 : R) (vars : list nat) (lagrange : R) (b : vec) : res ext :=
  let lam := lp_alpha B * lagrange in
  rbind (new_sgb false (Nat.div (length vars) c) c l1 l2 (Some lam) None None None) (fun a => sgb_seminorm a 0 b lam false).

(** The solver: call number, dimension, objective, starting point *)
Definition optimizer := nat -> nat -> (vec -> res ext) -> vec -> vec.
(** sub_grad, sub_soln, sub_linear_pred *)
Record answer := mk_answer { an_grad : vec; an_soln : vec; an_linpred : vec }.
(** solve_subproblem, regreg/paths/lasso.py:198-205, regreg/paths/group_lasso.py:206-211, regreg/paths/sparse_group_lasso.py:243-248, regreg/paths/sparse_group_block.py:251-256 *)
Definition solve_subproblem (M : optimizer) (k : nat) (P : lpath) (pen : list nat -> R -> vec -> res ext) (solution : vec) (vars : list nat) (lagrange : R) : answer :=
  let f := sub_loss P vars lagrange in
  let soln := M k (length vars) (objective f (pen vars lagrange)) (gather vars solution) in
  mk_answer (sm_grad f soln) soln (mat_tvec (t_out (lp_X P)) (subsample_columns (lp_X P) vars) soln).
(** what strong_rules calls *)
Definition path_solver (M : optimizer) (P : lpath) (pen : list nat -> R -> vec -> res ext) : solver := fun k v vars lagrange => an_soln (solve_subproblem M k P pen v vars lagrange).
(** BIG, regreg/paths/lasso.py:19, regreg/paths/group_lasso.py:23, regreg/paths/sparse_group_lasso.py:25 *)
Definition big : R := 10 ^ 12.
(** The null fit, regreg/paths/lasso.py:43-72, regreg/paths/group_lasso.py:45-80: solution and grad_solution; [free] are the unpenalized features *)
Definition null_fit (M : optimizer) (P : lpath) (pen : list nat -> R -> vec -> res ext) (free : list nat) : vec * vec :=
  let p := lp_size P in
  let '(solution, linpred) := match free with
    | [] => (zeros p, zeros (t_out (lp_X P)))
    | _ => let a := solve_subproblem M 0 P pen (zeros p) free big in (M_affine.scatter free (an_soln a) (zeros p), an_linpred a)
    end in
  (solution, path_gradient P solution linpred 1).
Definition lasso_null (M : optimizer) (P : lpath) : vec * vec := null_fit M P (lasso_pen P) (unpenalized P).
Definition group_null_fit (M : optimizer) (B : lpath) (groups : list Z) (weights : Z -> option R) : vec * vec :=
  null_fit M B (group_pen B groups weights) (candidates groups (g_unpenalized groups weights)).

(** ** warm_start, regreg/paths/__init__.py:374-429 *)
(** the keyword arguments of the solver: tol, start_step, and others *)
Inductive key := KTol | KStep | KOther (n : nat).
Definition dict := key -> option R.
Definition key_eqb (a b : key) : bool := match a, b with KTol, KTol => true | KStep, KStep => true | KOther m, KOther n => Nat.eqb m n | _, _ => false end.
Definition assign (d : dict) (k : key) (v : R) : dict := fun k' => if key_eqb k' k then Some v else d k'.
(** given the arguments too; the solution and final_step *)
Definition warm_optimizer := dict -> nat -> (vec -> res ext) -> vec -> vec * R.
(** full_loss, 38-42: the affine map of X *)
Definition full_loss (P : lpath) : smooth := mk_smooth (fun v => lp_func P (t_aff (lp_X P) v)) (fun v => t_adj (lp_X P) (lp_grad P (t_aff (lp_X P) v))).
(** total_loss, 401-402; restricted_penalty(None) with lagrange assigned, 386, 403: its seminorm *)
Definition total_loss (P : lpath) (lagrange : R) : smooth := smooth_sum (full_loss P) (diag_loss (enet_params P lagrange None)).
Definition warm_lasso_pen (P : lpath) (lagrange : R) (v : vec) : res ext := w_seminorm WL1 (map Fin (lp_weights P)) v (lagrange * lp_alpha P) false.
Definition warm_group_pen (B : lpath) (groups : list Z) (weights : Z -> option R) (lagrange : R) (v : vec) : res ext := g_seminorm false groups weights v (lagrange * lp_alpha B).
Definition warm_sparse_pen (B : lpath) (groups : list Z) (lw : vec) (weights : Z -> option R) (lagrange : R) (v : vec) : res ext :=
  s_seminorm groups (map Fin lw) weights v (lagrange * lp_alpha B) false.
Definition warm_block_pen (B : lpath) (r c : nat) (l1 l2 : R) (lagrange : R) (v : vec) : res ext :=
  rbind (new_sgb false r c l1 l2 (Some 1) None None None) (fun a => sgb_seminorm a 0 v (lagrange * lp_alpha B) false).
(** one value, 401-413: the new arguments, solution and final_step *)
Definition warm_step (M : warm_optimizer) (P : lpath) (pen : R -> vec -> res ext) (inner_tol : R) (lagrange : R) (st : dict * vec * R) : dict * vec * R :=
  let '(d, solution, step) := st in
  let d := assign (assign d KTol inner_tol) KStep step in
  let '(s, step') := M d (lp_size P) (objective (total_loss P lagrange) (pen lagrange)) solution in
  (d, s, step').
(** the loop: solutions with their losses, and the last state; solve_args is the caller's dictionary (or the default one), written in place *)
Fixpoint warm_loop (M : warm_optimizer) (P : lpath) (pen : R -> vec -> res ext) (inner_tol : R) (ls : list R) (st : dict * vec * R) : list (vec * R) * (dict * vec * R) :=
  match ls with
  | [] => ([], st)
  | l :: ls' => let st1 := warm_step M P pen inner_tol l st in
                let '(out, st2) := warm_loop M P pen inner_tol ls' st1 in
                ((snd (fst st1), sm_func (full_loss P) (snd (fst st1))) :: out, st2)
  end.
(** beta, devratio 425-427 (ValueError: the maximum of an empty array) and solve_args afterwards *)
Definition warm_start (M : warm_optimizer) (P : lpath) (pen : R -> vec -> res ext) (inner_tol first_step : R) (ls : list R) (solution : vec) (solve_args : dict) : res (list vec * list R) * dict :=
  let '(out, (d, _, _)) := warm_loop M P pen inner_tol ls (solve_args, solution, first_step) in
  (match ls with [] => Err ValueError | _ => Ok (map fst out, devratio (map snd out)) end, d).

(** dev_explained, regreg/paths/__init__.py:241-244, 334, 360: linear_predictor is written only when a value is accepted. For each value: the candidate
    features, their solution, whether it was given up *)
Fixpoint deviances (P : lpath) (linpred : vec) (pts : list (list nat * vec * bool)) : list R :=
  match pts with
  | [] => []
  | (vars, sub, warned) :: pts' =>
      let linpred := if warned then linpred else mat_tvec (t_out (lp_X P)) (subsample_columns (lp_X P) vars) sub in
      lp_func P linpred :: deviances P linpred pts'
  end.
(** 'dev explained' 367-368: one number for the whole path (no check that the first deviance is not 0) *)
Definition dev_explained (P : lpath) (solution : vec) (pts : list (list nat * vec * bool)) : R :=
  let lp0 := t_lin (lp_X P) solution in let devs := lp_func P lp0 :: deviances P lp0 pts in 1 - last devs 0 / hd 0 devs.
Definition lasso_dev (P : lpath) (solution : vec) (pts : list point) : R := dev_explained P solution (map (fun pt => (pt_set pt, pt_sub pt, pt_warned pt)) pts).
