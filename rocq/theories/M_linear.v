(** Model of regreg/atoms/linear_constraints.py. *)
From Coq Require Import Reals List Bool.
From Verif Require Import M_affine Vec Spec M_quad M_prox M_semi M_shift.
Import ListNotations.
Local Open Scope R_scope.

Inductive lclass := LProjection | LComplement.
(** linear_constraint, linear_constraints.py:14-44: the basis is stored as given, its orthonormality is not checked. *)
Record lcon := mk_lcon { l_class : lclass; l_basis : list vec; l_base : base }.
Definition new_lcon (k : lclass) (n : nat) (basis : list vec) (offset : option vec) (quadratic : option iq) : lcon := mk_lcon k basis (new_base n offset quadratic).
(** np.dot(np.dot(basis, x), basis) *)
Definition onto_rows (B : list vec) (x : vec) : vec := mat_tvec (length x) B (mat_vec B x).
(** cone_prox, 130-132 and 168-170 *)
Definition lcon_prox (k : lclass) (B : list vec) (x : vec) : vec :=
  match k with LProjection => onto_rows B x | LComplement => vsub x (onto_rows B x) end.
(** constraint, 122-127 and 160-165: the complement measures the projection itself. The quotient by max([norm(x), 1]) is never by zero. *)
Definition lcon_constraint (k : lclass) (B : list vec) (x : vec) : ext :=
  let projx := lcon_prox k B x in
  let d := match k with LProjection => norm (vsub x projx) | LComplement => norm projx end in
  if Rlt_dec (d / Rmax (norm x) 1) tol then Fin 0 else PInf.
(** proximal, 135-136 and 173-174: cone.proximal *)
Definition lcon_proximal (c : lcon) (quadratic : addend) : res vec :=
  shifted_prox (l_base c) quadratic (fun x _ => Ok (lcon_prox (l_class c) (l_basis c) x)).
(** nonsmooth_objective of cone, cones.py:137-151 *)
Definition lcon_objective (c : lcon) (x : vec) (check_feasibility : bool) : res ext :=
  shifted_objective (l_base c) x (fun y => if check_feasibility then Ok (lcon_constraint (l_class c) (l_basis c) y) else Ok (Fin 0)).
(** conjugate_cone_pairs, 184-188 *)
Definition other_class (k : lclass) : lclass := match k with LProjection => LComplement | LComplement => LProjection end.
(** What asking for the conjugate gives: a constraint, a smooth_conjugate object, or an exception *)
Inductive lconj := LCon (c : lcon) | LSmooth (c : lcon) | LNameError | LKeyError.
(** the property conjugate, 75-90, bound in the base class to its own get_conjugate: smooth_conjugate is not imported by this module *)
Definition lcon_conjugate (c : lcon) : lconj :=
  match conjugate_base (l_base c) with Some g => LCon (mk_lcon (other_class (l_class c)) (l_basis c) g) | None => LNameError end.
(** the method get_conjugate, 139-140 and 177-178, is cone.get_conjugate, cones.py:61-82, which looks the class up in the table of cones.py, where it is not *)
Definition lcon_get_conjugate (c : lcon) : lconj :=
  match conjugate_base (l_base c) with Some _ => LKeyError | None => LSmooth c end.
(** get_dual, 143-144 and 181-182, calls the property object cone.dual *)
Definition lcon_get_dual (c : lcon) : res lcon := Err TypeError.
(** linear, 94-99: linear_transform is not imported by this module *)
Definition lcon_linear (k : lclass) (D B : list vec) : res lcon := Err NameError.
(** __copy__, 53-57 *)
Definition lcon_copy (c : lcon) : lcon := new_lcon (l_class c) (b_shape (l_base c)) (l_basis c) (b_offset (l_base c)) (Some (b_quadratic (l_base c))).
