(** Model of regreg/atoms/simplex.py. *)
From Coq Require Import Reals List Bool.
From Verif Require Import Vec Spec M_quad M_prox M_semi M_shift.
Import ListNotations.
Local Open Scope R_scope.

(** simplex_constraint._basic_prox, regreg/atoms/simplex.py:86-89; x.clip(min=0) is max(x,0) *)
Definition simplex_basic_prox (x : vec) : res vec :=
  rmap (fun value => map (fun a => Rmax (a - value) 0) x) (find_solution_piecewise_linear_uncon 1 x).
(** maximum._basic_prox, regreg/atoms/simplex.py:211-214 *)
Definition maximum_basic_prox (x : vec) (lipschitz : R) : res vec :=
  rmap (fun value => vsub x (map (fun a => Rmax (a - value) 0) x)) (find_solution_piecewise_linear_uncon (1 / lipschitz) x).

(** simplex_constraint.constraint, regreg/atoms/simplex.py:92-98 *)
Definition simplex_constraint_value (x : vec) : res ext :=
  rmap (fun proj => if Rlt_dec (norm (vsub x proj) / Rmax (norm x) 1) tol then Fin 0 else PInf) (simplex_basic_prox x).

Inductive simplexclass := XSimplex | XMaximum.
Record simplex_atom := mk_simplex { x_class : simplexclass; x_base : base }.
(** proximal, regreg/atoms/simplex.py:69-84 and 194-209 *)
Definition simplex_proximal (a : simplex_atom) (quadratic : addend) : res vec :=
  shifted_prox (x_base a) quadratic
    (fun x L => match x_class a with XSimplex => simplex_basic_prox x | XMaximum => maximum_basic_prox x L end).
(** nonsmooth_objective, regreg/atoms/simplex.py:101-129 and 220-248 *)
Definition simplex_objective (a : simplex_atom) (x : vec) (check_feasibility : bool) : res ext :=
  shifted_objective (x_base a) x
    (fun y => match x_class a with
              | XSimplex => if check_feasibility then simplex_constraint_value y else Ok (Fin 0)
              | XMaximum => rmap Fin (np_max y)
              end).
(** get_conjugate, regreg/atoms/simplex.py:43-58, 168-183 and 250-253; for coef != 0 the name
    smooth_conjugate is not imported (NameError). *)
Definition simplex_pair (c : simplexclass) : simplexclass := match c with XSimplex => XMaximum | XMaximum => XSimplex end.
Definition simplex_conjugate (a : simplex_atom) : res simplex_atom :=
  match conjugate_base (x_base a) with
  | Some d => Ok (mk_simplex (simplex_pair (x_class a)) d)
  | None => Err NameError
  end.
