(** Model of regreg/problems/composite.py:151-224 (nonsmooth.solve, smooth.solve), regreg/problems/simple.py:17-126 and
    regreg/problems/separable.py:17-147. The solver is the model of FISTA in M_fista.v: as there, an exception raised by a method
    in the middle of a run is not modelled. *)
From Coq Require Import Reals List Arith Bool.
From Verif Require Import M_affine M_loss M_smooth Vec Spec M_quad M_semi M_shift SpecCone M_cones M_fista.
Import ListNotations.
Local Open Scope R_scope.

(** A nonsmooth object, by the two methods problems call: nonsmooth_objective(x, check_feasibility) and proximal(q). *)
Record nobj := mk_nobj { o_value : vec -> bool -> res ext; o_prox : iq -> res vec }.
(** the objects of M_semi.v and M_cones.v *)
Definition of_atom (a : atom) : nobj := mk_nobj (nonsmooth_objective a) (fun q => proximal a (AQuad q)).
Definition of_cone (c : cone) : nobj := mk_nobj (cone_objective c) (fun q => cone_proximal c (AQuad q)).
(** sq(0,0,0,0) *)
Definition zero_quad : iq := mk_iq 0 (FScal 0) (FScal 0) 0.
(** nonsmooth.solve, regreg/problems/composite.py:174-181: the optimum and the coefficients *)
Definition nonsmooth_solve (A : nobj) (quadratic : option iq) : res (ext * vec) :=
  let q := match quadratic with Some q => q | None => zero_quad end in
  rbind (o_prox A q) (fun c => rmap (fun v => (ext_add (ext_add (Fin 0) v) (Fin (q_func q c)), c)) (o_value A c false)).

(** A value of a method that cannot raise where the theorems apply it *)
Definition or_inf (r : res ext) : ext := match r with Ok e => e | Err _ => PInf end.
Definition or_nil (r : res vec) : vec := match r with Ok v => v | Err _ => [] end.
(** smooth.proximal, regreg/problems/composite.py:209-211. A scalar linear term gives a float. *)
Definition smooth_proximal (a : satom) (q : iq) : res vec :=
  rbind (q_add (s_quadratic a) (AQuad q)) (fun totalq =>
  match linear_term totalq with
  | FVec l => if Req_EM_T (coef totalq) 0 then Err ZeroDivisionError else Ok (map (fun t => - t / coef totalq) l)
  | _ => Err TypeError
  end).
(** the composite FISTA sees; smooth_objective is the atom's, nonsmooth_objective the inherited one (composite.py:73-74) *)
Definition smooth_composite (a : satom) (lipschitz : R) : composite :=
  mk_composite (fun x => Fin (s_func a x)) (s_grad a) (fun x _ => Fin (q_func (s_quadratic a) x))
               (fun L w g => or_nil (smooth_proximal a (mk_iq L (FVec w) (FVec g) 0))) lipschitz.
(** objective, regreg/problems/composite.py:82-83 *)
Definition smooth_value (a : satom) (x : vec) : R := s_func a x + q_func (s_quadratic a) x.
(** smooth.solve(quadratic, return_optimum=True), regreg/problems/composite.py:213-224: the object and its coefs afterwards, and the
    reported optimum. The quadratic is restored before the optimum is computed; if fit raises it is not restored. *)
Definition smooth_solve (loops fuel : nat) (P : params) (lipschitz : R) (a : satom) (coefs : vec) (quadratic : option iq) : satom * vec * res (R * vec) :=
  match q_add (s_quadratic a) (AQuad (match quadratic with Some q => q | None => zero_quad end)) with
  | Err e => (a, coefs, Err e)
  | Ok newq =>
      let a1 := set_quadratic a newq in
      match fit loops fuel P (smooth_composite a1 lipschitz) coefs None false with
      | Err e => (a1, coefs, Err e)
      | Ok s => let a2 := set_quadratic a1 (s_quadratic a) in (a2, s_coefs s, Ok (smooth_value a2 (s_coefs s), s_coefs s))
      end
  end.

(** simple_problem, regreg/problems/simple.py:17-40. A fresh problem has the zero quadratic (composite.py:126-133). *)
Record sproblem := mk_sproblem { p_smooth : satom; p_atom : nobj; p_quadratic : iq; p_coefs : vec }.
Definition new_simple (a : satom) (A : nobj) (coefs : vec) : sproblem := mk_sproblem a A no_quad coefs.
(** nonsmooth_objective 32-35; the smooth atom contributes its quadratic *)
Definition simple_nonsmooth (P : sproblem) (x : vec) (check : bool) : res ext :=
  rmap (fun vn => ext_add (ext_add vn (Fin (q_func (s_quadratic (p_smooth P)) x))) (Fin (q_func (p_quadratic P) x))) (o_value (p_atom P) x check).
(** proximal 37-39; proximal_atom.solve(proxq) is nonsmooth.solve *)
Definition simple_proximal (P : sproblem) (q : iq) : res vec :=
  rbind (q_add q (AQuad (s_quadratic (p_smooth P)))) (fun q1 =>
  rbind (q_add q1 (AQuad (p_quadratic P))) (fun q2 => o_prox (p_atom P) q2)).
Definition simple_composite (P : sproblem) : composite :=
  mk_composite (fun x => Fin (s_func (p_smooth P) x)) (s_grad (p_smooth P)) (fun x check => or_inf (simple_nonsmooth P x check))
               (fun L w g => or_nil (simple_proximal P (mk_iq L (FVec w) (FVec g) 0))) 0.
(** composite.objective *)
Definition simple_value (P : sproblem) (x : vec) (check : bool) : ext := ext_add (Fin (s_func (p_smooth P) x)) (or_inf (simple_nonsmooth P x check)).
Definition with_quadratic (P : sproblem) (q : iq) : sproblem := mk_sproblem (p_smooth P) (p_atom P) q (p_coefs P).
Definition with_coefs (P : sproblem) (x : vec) : sproblem := mk_sproblem (p_smooth P) (p_atom P) (p_quadratic P) x.
(** solve(quadratic, return_optimum=True) 77-93: the problem afterwards and the reported optimum. Here the optimum is computed before
    the quadratic is restored. *)
Definition simple_solve (loops fuel : nat) (prm : params) (P : sproblem) (quadratic : option iq) : sproblem * res (ext * vec) :=
  match (match quadratic with Some q => q_add (p_quadratic P) (AQuad q) | None => Ok (p_quadratic P) end) with
  | Err e => (P, Err e)
  | Ok newq =>
      let P1 := with_quadratic P newq in
      match fit loops fuel prm (simple_composite P1) (p_coefs P) None false with
      | Err e => (P1, Err e)
      | Ok s => let P2 := with_coefs P1 (s_coefs s) in (with_quadratic P2 (p_quadratic P), Ok (simple_value P2 (s_coefs s) false, s_coefs s))
      end
  end.
(** simple_problem.smooth / nonsmooth 41-63: the other half is the zero cone / the zero function *)
Definition simple_of_smooth (a : satom) (n : nat) : sproblem := new_simple a (of_cone (new_cone KZero n None None)) (zeros n).
Definition simple_of_nonsmooth (A : nobj) (n : nat) : sproblem := new_simple (SZero n no_quad) A (zeros n).
(** one step of gengrad, regreg/problems/simple.py:105-107, with [inner] the point problem.solve(q) returns *)
Definition gengrad_quadratic (P : sproblem) (lipschitz : R) (coef : vec) : iq := mk_iq lipschitz (FVec coef) (FVec (s_grad (p_smooth P) coef)) 0.

(** has_overlap, regreg/problems/separable.py:43-55. Groups are lists of nonnegative positions. *)
Definition mem (i : nat) (l : list nat) : bool := existsb (Nat.eqb i) l.
Definition same_set (a b : list nat) : bool := forallb (fun i => mem i b) a && forallb (fun i => mem i a) b.
Definition has_overlap (n : nat) (groups : list (list nat)) : res bool :=
  if existsb (existsb (fun i => Nat.leb n i)) groups then Err IndexError else
  Ok (existsb (fun i => existsb (fun j => negb (same_set (nth i groups []) (nth j groups [])) && existsb (fun k => mem k (nth j groups [])) (nth i groups []))
                          (seq 0 i)) (seq 0 (length groups))).
(** separable, regreg/problems/separable.py:57-147, without the shapes argument *)
Record separable := mk_separable { sp_shape : nat; sp_parts : list (nobj * list nat) }.
Definition new_separable (n : nat) (atoms : list nobj) (groups : list (list nat)) (test_for_overlap : bool) : res separable :=
  rbind (if test_for_overlap then has_overlap n groups else Ok false) (fun b =>
  if b then Err ValueError else
  if existsb (existsb (fun i => Nat.leb n i)) groups then Err IndexError else Ok (mk_separable n (combine atoms groups))).
(** nonsmooth_objective 124-134 *)
Fixpoint sep_value (parts : list (nobj * list nat)) (x : vec) (check : bool) : res ext :=
  match parts with
  | [] => Ok (Fin 0)
  | (A, g) :: parts' => rbind (take_idx g x) (fun xg => rbind (o_value A xg check) (fun v => rmap (ext_add v) (sep_value parts' x check)))
  end.
(** proximal 136-150: v starts as the minimizer of proxq and the groups are assigned in order *)
Fixpoint sep_assign (parts : list (nobj * list nat)) (q : iq) (v : vec) : res vec :=
  match parts with
  | [] => Ok v
  | (A, g) :: parts' => rbind (q_getitem q g) (fun qg => rbind (o_prox A qg) (fun w => sep_assign parts' q (M_affine.scatter g w v)))
  end.
Definition sep_prox (S : separable) (q : iq) : res vec :=
  rbind (cone_proximal (new_cone KZero (sp_shape S) None None) (AQuad q)) (fun v => sep_assign (sp_parts S) q v).
Definition of_separable (S : separable) : nobj := mk_nobj (sep_value (sp_parts S)) (sep_prox S).
