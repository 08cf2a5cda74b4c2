(** Model of ==, copy() and noneify of identity_quadratic, regreg/identity_quadratic.py:33-39, 70-88. *)
From Coq Require Import Reals List Bool.
From Verif Require Import M_affine Vec Spec M_quad M_equal.
Import ListNotations.
Local Open Scope R_scope.

(** numpy.allclose(a, b) of two numbers: |a - b| <= 1e-8 + 1e-5 |b| *)
Definition aclose (a b : R) : bool := if Rle_dec (Rabs (a - b)) (/ 10 ^ 8 + / 10 ^ 5 * Rabs b) then true else false.
(** numpy.allclose(a, b) of two attributes: numpy has no isfinite(None), which raises TypeError; a number is compared with every
    entry of an array *)
Definition f_close (a b : fld) : res bool :=
  match a, b with
  | FNone, _ | _, FNone => Err TypeError
  | FScal x, FScal y => Ok (aclose x y)
  | FScal x, FVec w => Ok (forallb (aclose x) w)
  | FVec v, FScal y => Ok (forallb (fun x => aclose x y) v)
  | FVec v, FVec w => np_all2 aclose v w
  end.
(** self == other for two identity_quadratics, regreg/identity_quadratic.py:33-38; (for another type of other the result is None) *)
Definition iq_eq (a b : iq) : res bool :=
  if aclose (coef a) (coef b) then
    rbind (f_close (center a) (center b)) (fun c => if c then
      rbind (f_close (linear_term a) (linear_term b)) (fun l => Ok (if l then aclose (constant_term a) (constant_term b) else false))
    else Ok false)
  else Ok false.
(** copy(self), regreg/identity_quadratic.py:70-74, through the constructor; copies of numbers, arrays and None are equal to them *)
Definition iq_copy (a : iq) : iq := mk_iq (coef a) (center a) (linear_term a) (constant_term a).
(** noneify, regreg/identity_quadratic.py:76-87: the object afterwards and the outcome. Line 86 reads self.center_term, which no
    object has, when center is not None. *)
Definition noneify (q : iq) : iq * res unit :=
  (mk_iq (coef q) (center q) (if fiszero (linear_term q) then FNone else linear_term q) (constant_term q),
   match center q with FNone => Ok tt | _ => Err AttributeError end).
