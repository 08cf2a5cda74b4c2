(** Model of the class methods linear and affine of regreg/atoms/cones.py:223-261, which put a cone after a matrix, of the objects they
    make (affine_cone, regreg/atoms/cones.py:304-308, an affine_atom), and of what the inherited class methods linear of
    regreg/atoms/seminorms.py:548-559 and of cone make on classes whose constructor does not take a shape first. *)
From Coq Require Import Reals List ZArith Bool.
From Verif Require Import M_affine Vec Spec M_quad M_prox M_semi M_shift SpecCone M_cones M_mode M_mixed M_weighted M_group M_slope M_simplex M_sgl M_afatom.
Import ListNotations.
Local Open Scope R_scope.

Record affine_cone := mk_affine_cone { ac_cone : cone; ac_map : transform }.
(** affine_atom.__init__ on a cone, regreg/atoms/__init__.py:114-131. [plain] as for new_affine_atom. *)
Definition new_affine_cone (c : cone) (t : transform) (plain : bool) : res affine_cone :=
  let c' := cone_copy c in
  match t_off t with
  | None => Err AttributeError
  | Some None => Ok (mk_affine_cone c' t)
  | Some (Some o) =>
      let b := c_base c' in
      let o' := match b_offset b with Some p => Some (vadd p o) | None => fresh_offset (Some o) end in
      if plain then Ok (mk_affine_cone (mk_cone (c_class c') (mk_base (b_shape b) o' (b_quadratic b)))
                          (mk_transform (t_lin t) (t_lin t) (t_adj t) (Some None) (t_in t) (t_out t)))
      else Err AttributeError
  end.
(** nonsmooth_objective, regreg/atoms/__init__.py:172-178 *)
Definition ac_objective (A : affine_cone) (x : vec) (check : bool) : res ext := cone_objective (ac_cone A) (t_lin (ac_map A) x) check.
(** dual, regreg/atoms/__init__.py:166-170; [None] when the quadratic has a coefficient (a smooth_conjugate) *)
Definition ac_dual (A : affine_cone) : option (transform * cone) :=
  let c := cone_copy (ac_cone A) in
  option_map (pair (ac_map A)) (cone_conjugate (mk_cone (c_class c) (mk_base (t_out (ac_map A)) (b_offset (c_base c)) (b_quadratic (c_base c))))).
(** cls.linear(D, offset=...), regreg/atoms/cones.py:223-242, with a matrix D; None is replaced by 0, and -0 is not stored *)
Definition cone_linear (k : coneclass) (D : list vec) (n : nat) (offset : option vec) (quadratic : option iq) : res affine_cone :=
  new_affine_cone (new_cone k (length D) (option_map vopp offset) quadratic) (matrix D n None) true.
(** cls.affine(D, offset), regreg/atoms/cones.py:244-261 *)
Definition cone_affine (k : coneclass) (D : list vec) (n : nat) (offset : option vec) (quadratic : option iq) : res affine_cone :=
  new_affine_cone (new_cone k (length D) (option_map vopp offset) quadratic) (matrix D n None) true.

(** ** Classes whose constructor takes something else than a shape first: l.output_shape, the tuple (len(D),), is taken for it *)
(** weighted l1norm and supnorm: the weights become [len(D)] *)
Record affine_watom := mk_affine_watom { aw_atom : watom; aw_rows : list vec }.
Definition watom_linear (c : wclass) (D : list vec) (lagrange bound : option R) (quadratic : option iq) (offset : option vec) : res affine_watom :=
  rmap (fun a => mk_affine_watom a D) (new_watom c [Fin (INR (length D))] lagrange bound (option_map vopp offset) quadratic).
(** The value, for an object in Lagrange form without offset; the boolean index arg[finite], regreg/atoms/weighted_atoms.py:161, 226,
    needs arrays of the same length. *)
Definition aw_objective (A : affine_watom) (x : vec) (check : bool) : res ext :=
  if Nat.eqb (length (w_weights (aw_atom A))) (length (aw_rows A)) then watom_objective (aw_atom A) (mat_vec (aw_rows A) x) check else Err IndexError.
(** slope and slope_conjugate: the same weights; in the products and quotients of regreg/atoms/slope.py:63-69, 165-173 one weight is
    used for all entries *)
Record affine_slope := mk_affine_slope { asl_atom : slope_atom; asl_rows : list vec }.
Definition slope_linear (c : slopeclass) (D : list vec) (lagrange bound : option R) (quadratic : option iq) (offset : option vec) : res affine_slope :=
  rmap (fun a => mk_affine_slope a D) (new_slope c [INR (length D)] lagrange bound (option_map vopp offset) quadratic).
(** xsort * weights and cumsum(xsort) / cumsum(weights) for one weight w: the cumulative sum of [w] is [w] *)
Definition one_weight_value (c : slopeclass) (w : R) (x : vec) (lagrange : R) : res R :=
  let xsort := rev (np_sort (vabs x)) in
  match c with
  | SSlope => Ok (lagrange * vsum (vabs (vmul xsort (repeat w (length x)))))
  | SSlopeConj => rmap (fun m => lagrange * m) (np_max (vabs (vzip Rdiv (cumsum xsort) (repeat w (length x)))))
  end.
Definition asl_objective (A : affine_slope) (x : vec) (check : bool) : res ext :=
  let a := asl_atom A in
  match M_slope.s_weights a with
  | [w] => moded_objective (fun y lam _ => rmap Fin (one_weight_value (s_class a) w y lam))
             (fun y b => rmap (fun s => if Rle_dec s (b * (1 + tol)) then Fin 0 else PInf) (one_weight_value (s_class a) w y 1)) (M_slope.s_moded a) (mat_vec (asl_rows A) x) check
  | _ => slope_objective a (mat_vec (asl_rows A) x) check
  end.
(** group_lasso and group_lasso_dual: the groups become [len(D)] *)
Definition gatom_linear (dual : bool) (D : list vec) (lagrange bound : option R) (quadratic : option iq) (offset : option vec) : res gatom :=
  new_gatom dual [Z.of_nat (length D)] (fun _ => None) lagrange bound (option_map vopp offset) quadratic.
(** The four group lasso cones: cone.linear, groups [len(D)] and so a cone in two dimensions, regreg/atoms/group_lasso.py:442-453.
    The offset is also given to the seminorm of the cone, which keeps it without looking at its length. *)
Definition gcone_linear (k : gcclass) (D : list vec) (offset : option vec) (quadratic : option iq) : gcone :=
  mk_gcone k [Z.of_nat (length D)] (filled (fun _ => None) [Z.of_nat (length D)]) (new_base 2 (option_map vopp offset) quadratic).
(** sparse_group_lasso: the argument lasso_weights is missing *)
Definition sgl_linear (dual : bool) (D : list vec) (lagrange bound : option R) (quadratic : option iq) (offset : option vec) : res sgl := Err TypeError.
(** simplex_constraint.linear and maximum.linear, regreg/atoms/simplex.py:62-69, 194-201: linear_transform is not imported by this module *)
Definition simplex_linear (c : simplexclass) (D : list vec) : res simplex_atom := Err NameError.
