(** Model of == and copy() on the atoms whose classes define them anew or inherit them from another class: the weighted
    norms (regreg/atoms/weighted_atoms.py:45-60), slope (regreg/atoms/slope.py:90-96), sparse_group_lasso
    (regreg/atoms/sparse_group_lasso.py:119-127), mixed_lasso (regreg/atoms/mixed_lasso.py:82-97, 265-280), simplex_constraint and
    maximum (regreg/atoms/simplex.py:22-31, 154-163), linear_constraint (regreg/atoms/linear_constraints.py:47-57) and the group
    lasso cones (regreg/atoms/group_lasso.py:464-469, with the == of regreg/atoms/cones.py:35-38).
    Objects of other classes than these are not compared. *)
From Coq Require Import Reals List ZArith Bool.
From Verif Require Import M_affine Vec Spec M_quad M_prox M_semi M_shift M_mode M_mixed M_weighted M_group M_mixed_atom M_simplex M_linear M_slope M_sgl.
Import ListNotations.
Local Open Scope R_scope.

(** np.equal of two arrays of shapes (n,) and (m,) and np.all of it: an array with one entry is repeated, other different lengths
    raise. *)
Definition np_all2 {A : Type} (test : A -> A -> bool) (a b : list A) : res bool :=
  if Nat.eqb (length a) (length b) then Ok (forallb (fun p => test (fst p) (snd p)) (combine a b))
  else match a, b with
       | [x], _ => Ok (forallb (test x) b)
       | _, [y] => Ok (forallb (fun x => test x y) a)
       | _, _ => Err ValueError
       end.
Definition ext_eqb (a b : ext) : bool :=
  match a, b with Fin r, Fin s => if Req_EM_T r s then true else false | PInf, PInf => true | _, _ => false end.
(** self.bound == other.bound if self.bound is not None, else self.lagrange == other.lagrange; regreg/atoms/seminorms.py:129-134 *)
Definition mode_eqb (a b : moded) : bool :=
  match m_bound a with Some _ => oeq (m_bound a) (m_bound b) | None => oeq (m_lagrange a) (m_lagrange b) end.

(** weighted norms, __eq__: regreg/atoms/weighted_atoms.py:45-51; the weights are compared before the parameters are *)
Definition wclass_eqb (a b : wclass) : bool := match a, b with WL1, WL1 | WSup, WSup => true | _, _ => false end.
Definition watom_eq (a b : watom) : res bool :=
  if wclass_eqb (w_class a) (w_class b) then
    rmap (fun e => mode_eqb (w_moded a) (w_moded b) && e) (np_all2 ext_eqb (w_weights a) (w_weights b))
  else Ok false.
(** __copy__, regreg/atoms/weighted_atoms.py:53-59 *)
Definition watom_copy (a : watom) : res watom :=
  new_watom (w_class a) (w_weights a) (m_lagrange (w_moded a)) (m_bound (w_moded a)) (b_offset (m_base (w_moded a))) (Some (b_quadratic (m_base (w_moded a)))).

(** slope inherits __eq__ from regreg/atoms/seminorms.py:129-134 *)
Definition slopeclass_eqb (a b : slopeclass) : bool := match a, b with SSlope, SSlope | SSlopeConj, SSlopeConj => true | _, _ => false end.
Definition slope_eq (a b : slope_atom) : bool := slopeclass_eqb (s_class a) (s_class b) && mode_eqb (M_slope.s_moded a) (M_slope.s_moded b).
(** __copy__, regreg/atoms/slope.py:90-96 *)
Definition slope_copy (a : slope_atom) : res slope_atom :=
  let m := M_slope.s_moded a in
  new_slope (s_class a) (M_slope.s_weights a) (m_lagrange m) (m_bound m) (b_offset (m_base m)) (Some (b_quadratic (m_base m))).

(** sparse_group_lasso inherits __eq__ from regreg/atoms/group_lasso.py:91-97 *)
Definition sgl_eq (a b : sgl) : bool :=
  gatom_eq (mk_gatom (s_dual a) (s_groups a) (M_sgl.s_weights a) (M_sgl.s_moded a)) (mk_gatom (s_dual b) (s_groups b) (M_sgl.s_weights b) (M_sgl.s_moded b)).
(** __copy__, regreg/atoms/sparse_group_lasso.py:119-127 *)
Definition sgl_copy (a : sgl) : res sgl :=
  let m := M_sgl.s_moded a in
  new_sgl (s_dual a) (s_groups a) (s_lasso a) (M_sgl.s_weights a) (m_lagrange m) (m_bound m) (b_offset (m_base m)) (Some (b_quadratic (m_base m))).

(** mixed_lasso and mixed_lasso_dual, __eq__: regreg/atoms/mixed_lasso.py:82-88, 265-271. The two dictionaries of weights are
    compared on [keys], which is to contain the keys of both. *)
Definition mlatom_eq (keys : list Z) (a b : mlatom) : bool :=
  Bool.eqb (ml_dual a) (ml_dual b) && Nat.eqb (length (ml_labels a)) (length (ml_labels b)) && zlist_eqb (ml_labels a) (ml_labels b)
  && forallb (fun g => opt_eqb (ml_weights a g) (ml_weights b g)) keys && (if Req_EM_T (ml_par a) (ml_par b) then true else false).
(** __copy__, regreg/atoms/mixed_lasso.py:90-96, 273-279; [ids] is the order in which the new object enumerates its groups *)
Definition mlatom_copy (ids : list Z) (a : mlatom) : mlatom :=
  mk_mlatom (ml_dual a) (ml_labels a) ids (ml_weights a) (ml_par a) (new_base (length (ml_labels a)) (b_offset (ml_base a)) (Some (b_quadratic (ml_base a)))).

(** simplex_constraint and maximum: regreg/atoms/simplex.py:22-31, 154-163 *)
Definition simplexclass_eqb (a b : simplexclass) : bool := match a, b with XSimplex, XSimplex | XMaximum, XMaximum => true | _, _ => false end.
Definition simplex_eq (a b : simplex_atom) : bool := simplexclass_eqb (x_class a) (x_class b) && Nat.eqb (b_shape (x_base a)) (b_shape (x_base b)).
Definition simplex_copy (a : simplex_atom) : simplex_atom :=
  mk_simplex (x_class a) (new_base (b_shape (x_base a)) (b_offset (x_base a)) (Some (b_quadratic (x_base a)))).

(** linear_constraint.__eq__, regreg/atoms/linear_constraints.py:47-51: np.allclose(other.basis, self.basis), that is
    |other - self| <= 1e-8 + 1e-5*|self| in every entry. The rows of both bases are taken to have the same length; one row is compared
    with all rows of the other. *)
Definition lclass_eqb (a b : lclass) : bool := match a, b with LProjection, LProjection | LComplement, LComplement => true | _, _ => false end.
Definition lcon_eq (a b : lcon) : res bool :=
  if lclass_eqb (l_class a) (l_class b) then
    if Nat.eqb (b_shape (l_base a)) (b_shape (l_base b)) then np_all2 (fun r s => allclose s r) (l_basis a) (l_basis b) else Ok false
  else Ok false.

(** The group lasso cones: __eq__ of cone, regreg/atoms/cones.py:35-38, and __copy__, regreg/atoms/group_lasso.py:464-469 *)
Definition gcclass_eqb (a b : gcclass) : bool :=
  match a, b with GEpi, GEpi | GEpiPolar, GEpiPolar | GDualEpi, GDualEpi | GDualEpiPolar, GDualEpiPolar => true | _, _ => false end.
Definition gcone_eq (a b : gcone) : bool := gcclass_eqb (gc_class a) (gc_class b) && Nat.eqb (b_shape (gc_base a)) (b_shape (gc_base b)).
Definition gcone_copy (a : gcone) : gcone :=
  mk_gcone (gc_class a) (gc_groups a) (filled (gc_weights a) (gc_groups a)) (new_base (S (length (gc_groups a))) (b_offset (gc_base a)) (Some (b_quadratic (gc_base a)))).
