(** Model of affine_atom, regreg/atoms/__init__.py:96-201, over the seminorm atoms, and of the class methods affine, linear and
    shift of regreg/atoms/seminorms.py:525-570. *)
From Coq Require Import Reals List.
From Verif Require Import Vec Spec M_quad M_prox M_semi M_affine.
Import ListNotations.
Local Open Scope R_scope.

Record affine_atom := mk_affine_atom { aa_atom : atom; aa_map : transform }.
(** __init__, regreg/atoms/__init__.py:114-131. [plain]: the transform has the attributes linear_operator and diagD, as only
    affine_transform and linear_transform objects themselves do. The array addition in place and the setter together leave the
    sum in the offset of the copied atom, also when it is zero. *)
Definition new_affine_atom (a : atom) (t : transform) (plain : bool) : res affine_atom :=
  rbind (copy_atom a) (fun a' =>
  match t_off t with
  | None => Err AttributeError
  | Some None => Ok (mk_affine_atom a' t)
  | Some (Some o) =>
      let a'' := match a_offset a' with
                 | Some p => mk_atom (klass a') (shape a') (a_lagrange a') (a_bound a') (Some (vadd p o)) (a_quadratic a')
                 | None => set_offset a' (Some o)
                 end in
      if plain then Ok (mk_affine_atom a'' (mk_transform (t_lin t) (t_lin t) (t_adj t) (Some None) (t_in t) (t_out t))) else Err AttributeError
  end).
(** nonsmooth_objective, regreg/atoms/__init__.py:172-178 *)
Definition aa_objective (A : affine_atom) (x : vec) (check : bool) : res ext := nonsmooth_objective (aa_atom A) (t_lin (aa_map A) x) check.
(** dual, regreg/atoms/__init__.py:166-170 *)
Definition aa_dual (A : affine_atom) : res (transform * atom) :=
  rbind (copy_atom (aa_atom A)) (fun a =>
  rbind (get_conjugate (mk_atom (klass a) (t_out (aa_map A)) (a_lagrange a) (a_bound a) (a_offset a) (a_quadratic a))) (fun d => Ok (aa_map A, d))).
(** cls.affine(D, offset) with a matrix D, regreg/atoms/seminorms.py:525-546; None is replaced by 0, and -0 is not stored *)
Definition cls_affine (c : snclass) (D : list vec) (n : nat) (offset : option vec) (lagrange bound : option R) (quadratic : option iq) : res affine_atom :=
  rbind (new_atom c (length D) lagrange bound (option_map vopp offset) quadratic) (fun a => new_affine_atom a (matrix D n None) true).
(** cls.linear(D, offset=...), regreg/atoms/seminorms.py:548-560 *)
Definition cls_linear (c : snclass) (D : list vec) (n : nat) (lagrange bound : option R) (quadratic : option iq) (offset : option vec) : res affine_atom :=
  rbind (new_atom c (length D) lagrange bound (option_map vopp offset) quadratic) (fun a => new_affine_atom a (matrix D n None) true).
(** cls.shift(offset), regreg/atoms/seminorms.py:562-570 *)
Definition cls_shift (c : snclass) (offset : vec) (lagrange bound : option R) (quadratic : option iq) : res atom :=
  new_atom c (length offset) lagrange bound (Some (vopp offset)) quadratic.
