(** Model of quasi_newton (regreg/problems/newton.py): proximal Newton steps with BFGS updates. *)
From Coq Require Import Reals List Arith Bool.
From Verif Require Import M_affine M_loss M_smooth Vec Spec M_quad M_semi M_shift M_cones M_fista M_problem.
Import ListNotations.
Local Open Scope R_scope.

(** Matrices as lists of rows: np.multiply.outer(y, z), sums and scalar multiples, np.identity, np.diag *)
Definition outer (y z : vec) : list vec := map (fun a => vscal a z) y.
Fixpoint mat_zip (f : vec -> vec -> vec) (A B : list vec) : list vec := match A, B with a :: A', b :: B' => f a b :: mat_zip f A' B' | _, _ => [] end.
Definition mat_add := mat_zip vadd.
Definition mat_sub := mat_zip vsub.
Definition mat_scal (c : R) (A : list vec) : list vec := map (vscal c) A.
Definition unit_row (n i : nat) : vec := map (fun j => if Nat.eqb i j then 1 else 0) (seq 0 n).
Definition eye (n : nat) : list vec := map (unit_row n) (seq 0 n).
Fixpoint diag_from (i : nat) (A : list vec) : vec := match A with [] => [] | r :: A' => nth i r 0 :: diag_from (S i) A' end.
Definition mat_diag : list vec -> vec := diag_from 0.
Definition mean (v : vec) : R := vsum v / INR (length v).

(** [qn_hessian] is also the matrix Q of the inner problem: one array, updated in place. *)
Record qnewton := mk_qnewton { qn_smooth : satom; qn_atom : nobj; qn_quadratic : iq; qn_hessian : list vec; qn_coefs : vec }.
(** __init__ 33-76, damping_term 31; [coefs]: proximal_atom.coefs *)
Definition new_qnewton (a : satom) (A : nobj) (H0 : list vec) (q : option iq) (coefs : vec) : qnewton :=
  mk_qnewton a A (match q with Some q => q | None => zero_quad end)
    (mat_add H0 (mat_scal 1 (mat_scal (mean (mat_diag H0)) (eye (length H0))))) coefs.
(** update_hessian 94-136; a division by zero fills the matrix with nan *)
Definition update_hessian (H : list vec) (old_soln new_soln old_grad new_grad : vec) : res (list vec) :=
  let y := vsub new_grad old_grad in
  let s := vsub new_soln old_soln in
  let Bs := mat_vec H s in
  if Rlt_dec (dot y s) (- / 10 ^ 5) then Err ValueError else
  if Req_EM_T (dot y s) 0 then Err NaNResult else
  if Req_EM_T (dot s Bs) 0 then Err NaNResult else
  Ok (mat_add H (mat_sub (mat_scal (/ dot y s) (outer y y)) (mat_scal (/ dot s Bs) (outer Bs Bs)))).
(** nonsmooth_objective 161-180, objective 78-92: the second argument of nonsmooth_objective there is the string 'func', which counts as true *)
Definition qn_nonsmooth (N : qnewton) (x : vec) (check : bool) : res ext :=
  rmap (fun vn => ext_add (ext_add vn (Fin (q_func (s_quadratic (qn_smooth N)) x))) (Fin (q_func (qn_quadratic N) x))) (o_value (qn_atom N) x check).
Definition qn_objective (N : qnewton) (x : vec) : ext := ext_add (Fin (s_func (qn_smooth N) x)) (or_inf (qn_nonsmooth N x true)).
(** the inner problem 68-75, warm started 241 *)
Definition qn_problem (N : qnewton) : sproblem :=
  mk_sproblem (SQuad (Some (mat_vec (qn_hessian N))) (length (qn_coefs N)) 1 None no_quad) (qn_atom N) no_quad (qn_coefs N).
Definition qn_linear (N : qnewton) : vec := vsub (s_grad (qn_smooth N) (qn_coefs N)) (mat_vec (qn_hessian N) (qn_coefs N)).
(** solve_inner_loop 202-250: direction, grad, quad_soln. The quadratic of the smooth atom is not passed on. *)
Definition qn_inner (loops fuel : nat) (prm : params) (N : qnewton) : res (vec * vec * vec) :=
  rbind (q_add (mk_iq 0 (FScal 0) (FVec (qn_linear N)) 0) (AQuad (qn_quadratic N))) (fun q =>
  rmap (fun vx => (vsub (snd vx) (qn_coefs N), s_grad (qn_smooth N) (qn_coefs N), snd vx)) (snd (simple_solve loops fuel prm (qn_problem N) (Some q)))).
(** converged 314-344 *)
Definition qn_converged (old_soln new_soln : vec) : bool :=
  if Rlt_dec (max_list 0 (map Rabs (vsub old_soln new_soln))) (/ 10 ^ 6 * norm new_soln) then true else false.
Definition qn_move (N : qnewton) (x : vec) (H : list vec) : qnewton := mk_qnewton (qn_smooth N) (qn_atom N) (qn_quadratic N) H x.
(** solve 252-312: the state afterwards and the last quad_soln. [prm i]: the solver arguments of inner solve i, whose start_step depends
    on the one before; [search i x d]: the stepsize found by backtrack (fmin_powell 346-396), left arbitrary. solver_results is not modelled. *)
Fixpoint qn_loop (niter i loops fuel : nat) (prm : nat -> params) (search : nat -> vec -> vec -> R) (N : qnewton) (last : option vec) : res (qnewton * option vec) :=
  match niter with
  | O => Ok (N, last)
  | S niter' =>
      rbind (qn_inner loops fuel (prm i) N) (fun p =>
      let '(direction, grad, quad_soln) := p in
      let new := vadd (qn_coefs N) (vscal (search i (qn_coefs N) direction) direction) in
      let new_grad := s_grad (qn_smooth N) new in
      if qn_converged (qn_coefs N) new then Ok (N, Some quad_soln) else
      rbind (update_hessian (qn_hessian N) (qn_coefs N) new grad new_grad) (fun H =>
      qn_loop niter' (S i) loops fuel prm search (qn_move N new H) (Some quad_soln)))
  end.
(** self.coefs[:] = quad_soln; with niter=0 quad_soln is unbound *)
Definition qn_solve (niter loops fuel : nat) (prm : nat -> params) (search : nat -> vec -> vec -> R) (N : qnewton) : res (qnewton * vec) :=
  rbind (qn_loop niter 0 loops fuel prm search N None) (fun p =>
  match snd p with Some x => Ok (qn_move (fst p) x (qn_hessian (fst p)), x) | None => Err NameError end).
