(** Model of nesta and tfocs, regreg/problems/simple.py:128-360. The solver of the inner problems, simple_problem.solve (77-93) with FISTA,
    is an argument: theorems range over all solvers. Arrays are values; that the center of a smoothing quadratic is the array updated in
    place does not show, as every round builds a new smoothed object. *)
From Coq Require Import Reals List Arith Bool.
From Verif Require Import M_affine M_loss M_smooth Vec Spec M_quad M_semi M_shift M_afatom SpecCone M_cones M_fista M_problem M_sconj.
Import ListNotations.
Local Open Scope R_scope.

(** The argument conjugate_atom *)
Inductive source := SrcAtom (a : atom) | SrcCone (c : cone) | SrcAffine (A : affine_atom).
(** transform.output_shape of conjugate_atom.dual, regreg/atoms/__init__.py:37-44, 166-170, regreg/atoms/seminorms.py:489-522,
    regreg/atoms/cones.py:86-113: the identity for atoms and cones *)
Definition src_dual (s : source) : res nat :=
  match s with
  | SrcAtom a => if Req_EM_T (coef (a_quadratic a)) 0 then rmap (fun _ => shape a) (get_conjugate a) else Ok (shape a)
  | SrcCone c => Ok (b_shape (c_base c))
  | SrcAffine A => rmap (fun Td => t_out (fst Td)) (aa_dual A)
  end.
(** the shape of the argument of the smoothed object *)
Definition src_in (s : source) : nat := match s with SrcAtom a => shape a | SrcCone c => b_shape (c_base c) | SrcAffine A => t_in (aa_map A) end.
(** conjugate_atom.smoothed(q), M_sconj.v: a smooth_conjugate, or an affine_smooth over one *)
Definition smoothed := (sconj * option transform)%type.
Definition src_smoothed (s : source) (q : iq) : res smoothed :=
  match s with
  | SrcAtom a => rmap (fun C => (C, None)) (atom_smoothed a q)
  | SrcCone c => rmap (fun C => (C, None)) (cone_smoothed c q)
  | SrcAffine A => rmap (fun p => (fst p, Some (snd p))) (aa_smoothed A q)
  end.
(** smooth_objective of the smoothed object: value, the gradient of the smooth_conjugate inside, the gradient.
    regreg/problems/composite.py:371-400, regreg/smooth/__init__.py:235-255. A method that raises is outside the model. *)
Definition sm_point (p : smoothed) (x : vec) : vec := match snd p with None => x | Some T => t_aff T x end.
Definition sm_func (p : smoothed) (x : vec) : R := match sc_eval (fst p) (sm_point p x) EvFunc with Ok (VFunc r) => r | _ => 0 end.
Definition sm_inner (p : smoothed) (x : vec) : vec := match sc_eval (fst p) (sm_point p x) EvGrad with Ok (VGrad g) => g | _ => [] end.
Definition sm_grad (p : smoothed) (x : vec) : vec := match snd p with None => sm_inner p x | Some T => t_adj T (sm_inner p x) end.

(** What problem.solve leaves behind: coefs; the argument of the last evaluation of the gradient; the last point the proximal_atom
    returned, which is its attribute coefs (regreg/problems/composite.py:177) *)
Record answer := mk_answer { an_coefs : vec; an_at : vec; an_prox : vec }.
(** round number, problem, starting point, tol *)
Definition solver := nat -> composite -> vec -> R -> res answer.
(** The attribute grad of the smoothed object when problem.objective(primal_coef) has been evaluated: a smooth_conjugate stores it in
    every mode (regreg/problems/composite.py:380-398), an affine_smooth with the gradient only (regreg/smooth/__init__.py:236-247) *)
Definition stored (p : smoothed) (a : answer) : vec := match snd p with None => sm_inner p (an_coefs a) | Some _ => sm_inner p (an_at a) end.

(** nesta 128-135. [na_coefs]: proximal_atom.coefs at the call *)
Record nesta_args := mk_nesta {
  na_loss : option satom; na_atom : option nobj; na_coefs : vec; na_source : source; na_epsilon : option (list R); na_tol : R; na_max_iters : nat;
  na_min_iters : nat; na_coef_tol : R; na_primal : option vec; na_dual : option vec; na_coef_stop : bool; na_quadratic : option iq }.
(** 179-180 *)
Definition schedule (epsilon : option (list R)) (max_iters : nat) : list R := match epsilon with Some e => e | None => repeat 1 max_iters end.
(** 188-189 *)
Definition quad_or_zero (q : option iq) : iq := match q with Some q => q | None => zero_quad end.
(** smooth_sum takes its shape from its first atom, regreg/smooth/__init__.py:324-325 *)
Definition nesta_shape (N : nesta_args) : nat := match na_loss N with Some a => s_shape a | None => src_in (na_source N) end.
(** 199-202, simple_problem.smooth 41-50 *)
Definition nesta_atom (N : nesta_args) : nobj := match na_atom N with Some A => A | None => of_cone (new_cone KZero (nesta_shape N) None None) end.
(** 195-198: the sum or the smoothed object; regreg/smooth/__init__.py:326-372 *)
Definition nesta_func (N : nesta_args) (p : smoothed) (x : vec) : R :=
  match na_loss N with Some a => acc_func [1; 1] [s_func a x; sm_func p x] | None => sm_func p x end.
Definition nesta_grad (N : nesta_args) (p : smoothed) (x : vec) : vec :=
  match na_loss N with Some a => acc_grad (nesta_shape N) [1; 1] [s_grad a x; sm_grad p x] | None => sm_grad p x end.
(** The problem that FISTA sees inside problem.solve(quadratic), simple_problem 24-39, 77-79. The quadratic of a sum, of a smoothed
    atom and of a new problem is zero; the quadratics of the parts of a sum are not read. *)
Definition inner_nonsmooth (A : nobj) (q : iq) (x : vec) (check : bool) : ext :=
  ext_add (ext_add (or_inf (o_value A x check)) (Fin (q_func no_quad x))) (Fin (q_func q x)).
Definition inner_proximal (A : nobj) (q : iq) (L : R) (w g : vec) : vec :=
  or_nil (rbind (q_add (mk_iq L (FVec w) (FVec g) 0) (AQuad no_quad)) (fun q1 => rbind (q_add no_quad (AQuad q)) (fun newq => rbind (q_add q1 (AQuad newq)) (o_prox A)))).
Definition nesta_problem (N : nesta_args) (p : smoothed) : composite :=
  mk_composite (fun x => Fin (nesta_func N p x)) (nesta_grad N p) (inner_nonsmooth (nesta_atom N) (quad_or_zero (na_quadratic N)))
               (inner_proximal (nesta_atom N) (quad_or_zero (na_quadratic N))) 0.
(** 204-205: problem.coefs is the array of the proximal_atom, a fresh zero array without one *)
Definition nesta_start (N : nesta_args) (idx : nat) (carried : vec) : vec :=
  match idx, na_primal N with
  | O, Some x => x
  | _, _ => match na_atom N with Some _ => carried | None => zeros (nesta_shape N) end
  end.
(** 208: problem.objective(primal_coef) + quadratic.objective(primal_coef, 'func') *)
Definition nesta_value (N : nesta_args) (p : smoothed) (x : vec) : ext :=
  ext_add (ext_add (Fin (nesta_func N p x)) (inner_nonsmooth (nesta_atom N) no_quad x false)) (Fin (q_func (quad_or_zero (na_quadratic N)) x)).
(** 212-217. Comparisons with inf - inf or inf < inf are false. *)
Definition coefs_close (coef_tol : R) (center grad : vec) : bool := if Rlt_dec (norm (vsub center grad)) (coef_tol * (norm grad + 1)) then true else false.
Definition values_close (coef_tol : R) (updated value : ext) : bool :=
  match updated, value with Fin u, Fin v => if Rlt_dec (Rabs (u - v)) (coef_tol * (Rabs u + 1)) then true else false | _, _ => false end.
(** 222 *)
Definition extrapolate (idx : nat) (grad center : vec) : vec := vadd grad (vscal (INR idx / (INR idx + 3)) (vsub grad center)).
(** What happened in a round: its number, eps, the dual coefficients at its start, primal_coef, smoothed.grad, the tolerance handed to the solver. *)
Record round := mk_round { r_idx : nat; r_eps : R; r_center : vec; r_primal : vec; r_dual : vec; r_tol : R }.
(** The returned pair; the rounds; whether a warning was issued and whether the loop was left by break *)
Record outcome := mk_outcome { o_primal : vec; o_dual : vec; o_rounds : list round; o_warned : bool; o_broke : bool }.
(** for idx, eps in enumerate(epsilon), 193-226. Without any round primal_coef is unbound. *)
Fixpoint nesta_loop (run : solver) (N : nesta_args) (idx : nat) (epsilon : list R) (center carried : vec) (value : ext) (last : option vec) : res outcome :=
  match epsilon with
  | [] => match last with Some x => Ok (mk_outcome x center [] false false) | None => Err NameError end
  | eps :: rest =>
      rbind (src_smoothed (na_source N) (mk_iq eps (FVec center) (FScal 0) 0)) (fun p =>
      rbind (run idx (nesta_problem N p) (nesta_start N idx carried) (Rmax eps (na_tol N))) (fun a =>
      let x := an_coefs a in
      let updated := nesta_value N p x in
      let g := stored p a in
      let r := mk_round idx eps center x g (Rmax eps (na_tol N)) in
      if andb (if na_coef_stop N then coefs_close (na_coef_tol N) center g else values_close (na_coef_tol N) updated value) (Nat.leb (na_min_iters N) idx)
      then Ok (mk_outcome x center [r] false true)
      else rmap (fun o => mk_outcome (o_primal o) (o_dual o) (r :: o_rounds o) (orb (Nat.eqb (S idx) (na_max_iters N)) (o_warned o)) (o_broke o))
             (nesta_loop run N (S idx) rest (extrapolate idx g center) (an_prox a) updated (Some x))))
  end.
(** nesta 179-226 *)
Definition nesta (run : solver) (N : nesta_args) : res outcome :=
  rbind (src_dual (na_source N)) (fun m =>
  nesta_loop run N 0 (schedule (na_epsilon N) (na_max_iters N)) (match na_dual N with Some y => y | None => zeros m end) (na_coefs N) PInf None).

(** tfocs 228-232. [tf_coefs]: dual_proximal_atom.coefs at the call; primal_atom is an atom or a cone *)
Inductive primal := PrimAtom (a : atom) | PrimCone (c : cone).
Record tfocs_args := mk_tfocs {
  tf_primal : primal; tf_map : transform; tf_dual : nobj; tf_coefs : vec; tf_epsilon : option (list R); tf_tol : R; tf_max_iters : nat; tf_coef_tol : R; tf_quadratic : option iq }.
(** 329, primal_atom.conjugate: with a curved quadratic a smooth_conjugate, which cannot be smoothed (TypeError, see M_sconj.v);
    its shape is that of the atom *)
Definition prim_conjugate (P : primal) : res (option source) :=
  match P with
  | PrimAtom a => if Req_EM_T (coef (a_quadratic a)) 0 then rmap (fun d => Some (SrcAtom d)) (get_conjugate a) else Ok None
  | PrimCone c => Ok (option_map SrcCone (cone_conjugate c))
  end.
Definition prim_shape (P : primal) : nat := match P with PrimAtom a => shape a | PrimCone c => b_shape (c_base c) end.
(** 345: conjugate_atom.smoothed(identity_quadratic(eps, primal_coef, 0, 0) + quadratic) *)
Definition tfocs_smoothed (conjugate : option source) (eps : R) (center : vec) (q : iq) : res sconj :=
  rbind (q_add (mk_iq eps (FVec center) (FScal 0) 0) (AQuad q)) (fun sq =>
  match conjugate with
  | Some (SrcAtom d) => atom_smoothed d sq
  | Some (SrcCone c) => cone_smoothed c sq
  | _ => if Req_EM_T (coef sq) 0 then Err ValueError else Err TypeError
  end).
(** 346: affine_smooth(smoothed, scalar_multiply(adjoint(transform), -1)) *)
Definition tfocs_smooth (T : transform) (C : sconj) : smoothed := (C, Some (scalar_multiply (adjoint T) (-1))).
(** 334-338 *)
Definition tfocs_quadratic (T : transform) : res iq :=
  match t_off T with
  | None => Err AttributeError
  | Some (Some o) => Ok (mk_iq 0 (FScal 0) (FVec (vopp o)) 0)
  | Some None => Ok zero_quad
  end.
Definition tfocs_problem (A : nobj) (q : iq) (p : smoothed) : composite :=
  mk_composite (fun x => Fin (sm_func p x)) (sm_grad p) (inner_nonsmooth A q) (inner_proximal A q) 0.
(** 351-352 *)
Definition primal_close (coef_tol : R) (center grad : vec) : bool := if Rlt_dec (norm (vsub center grad)) (coef_tol * Rmax (norm grad) 1) then true else false.
(** for idx, eps in enumerate(epsilon), 344-360: r_center is primal_coef at the start of the round, r_primal the dual coefficients, r_dual final_smooth.grad.
    The result's o_primal is the returned primal_coef, o_dual the returned dual_coef. *)
Fixpoint tfocs_loop (run : solver) (F : tfocs_args) (conjugate : option source) (dual_sq : iq) (idx : nat) (epsilon : list R) (center carried : vec) (last : option vec) : res outcome :=
  match epsilon with
  | [] => match last with Some u => Ok (mk_outcome center u [] false false) | None => Err NameError end
  | eps :: rest =>
      rbind (tfocs_smoothed conjugate eps center (quad_or_zero (tf_quadratic F))) (fun C =>
      let p := tfocs_smooth (tf_map F) C in
      rbind (run idx (tfocs_problem (tf_dual F) dual_sq p) carried (Rmax eps (tf_tol F))) (fun a =>
      let g := sm_inner p (an_at a) in
      let r := mk_round idx eps center (an_coefs a) g (Rmax eps (tf_tol F)) in
      if primal_close (tf_coef_tol F) center g then Ok (mk_outcome center (an_coefs a) [r] false true)
      else rmap (fun o => mk_outcome (o_primal o) (o_dual o) (r :: o_rounds o) (orb (Nat.eqb (S idx) (tf_max_iters F)) (o_warned o)) (o_broke o))
             (tfocs_loop run F conjugate dual_sq (S idx) rest (extrapolate idx g center) (an_prox a) (Some (an_coefs a)))))
  end.
(** tfocs 325-360 *)
Definition tfocs (run : solver) (F : tfocs_args) : res outcome :=
  rbind (prim_conjugate (tf_primal F)) (fun conjugate =>
  rbind (tfocs_quadratic (tf_map F)) (fun dual_sq =>
  tfocs_loop run F conjugate dual_sq 0 (schedule (tf_epsilon F) (tf_max_iters F)) (zeros (prim_shape (tf_primal F))) (tf_coefs F) None)).
