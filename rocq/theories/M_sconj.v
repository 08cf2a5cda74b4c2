(** Model of smooth_conjugate (regreg/problems/composite.py:226-403), of the method smoothed of atoms and affine atoms
    (regreg/atoms/__init__.py:72-88, 180-201; regreg/problems/composite.py:135-149) and of the class conjugate
    (regreg/problems/conjugate.py) over nonsmooth objects. *)
From Coq Require Import Reals List Arith Bool.
From Verif Require Import M_affine M_loss M_smooth Vec Spec M_quad M_semi M_shift M_afatom SpecCone M_cones M_fista M_problem.
Import ListNotations.
Local Open Scope R_scope.

(** smooth_conjugate; [sc_own]: the quadratic of the atom, which its own methods already include *)
Record sconj := mk_sconj { sc_atom : nobj; sc_own : iq; sc_smoothing : iq; sc_lipschitz : R }.
(** __init__ 228-258 *)
Definition new_sconj (A : nobj) (own : iq) (smoothing : option iq) : res sconj :=
  let s := match smoothing with Some s => s | None => zero_quad end in
  rbind (q_add own (AQuad s)) (fun t => if Req_EM_T (coef t) 0 then Err ValueError else Ok (mk_sconj A own s (1 / coef t))).
(** An infinite optimum is outside the model *)
Definition finite (e : ext) : res R := match e with Fin r => Ok r | PInf => Err NaNResult end.
(** smooth_objective 371-400 *)
Definition sc_eval (C : sconj) (x : vec) (m : smode_arg) : res sval :=
  rbind (q_add (sc_smoothing C) (AQuad (mk_iq 0 (FScal 0) (FVec (vopp x)) 0))) (fun q =>
  match m with
  | EvBoth => rbind (nonsmooth_solve (sc_atom C) (Some q)) (fun p => rmap (fun r => VBoth (- r) (snd p)) (finite (fst p)))
  | EvGrad => rmap VGrad (o_prox (sc_atom C) q)
  | EvFunc => rbind (nonsmooth_solve (sc_atom C) (Some q)) (fun p => rmap (fun r => VFunc (- r)) (finite (fst p)))
  | EvOther => Err ValueError
  end).
(** the property conjugate of an atom and of a cone whose quadratic has coef != 0, regreg/atoms/seminorms.py:197-198, regreg/atoms/cones.py:78-79 *)
Definition atom_sconj (a : atom) : res sconj := new_sconj (of_atom a) (a_quadratic a) None.
Definition cone_sconj (c : cone) : res sconj := new_sconj (of_cone c) (b_quadratic (c_base c)) None.
Definition set_aquad (a : atom) (q : iq) : atom := mk_atom (klass a) (shape a) (a_lagrange a) (a_bound a) (a_offset a) q.
Definition set_cquad (c : cone) (q : iq) : cone := mk_cone (c_class c) (mk_base (b_shape (c_base c)) (b_offset (c_base c)) q).
(** atom.smoothed, regreg/atoms/__init__.py:72-88. If the atom has a quadratic with coef != 0 its conjugate is a smooth_conjugate,
    whose own get_conjugate calls smooth_conjugate(atom, quadratic=...): TypeError. *)
Definition atom_smoothed (a : atom) (sq : iq) : res sconj :=
  if Req_EM_T (coef (a_quadratic a)) 0 then
    rbind (get_conjugate a) (fun d0 => rbind (copy_atom d0) (fun d =>
    if Req_EM_T (coef sq) 0 then Err ValueError else
    rbind (q_add sq (AQuad (a_quadratic d))) (fun t => atom_sconj (set_aquad d t))))
  else if Req_EM_T (coef sq) 0 then Err ValueError else Err TypeError.
Definition cone_smoothed (c : cone) (sq : iq) : res sconj :=
  match cone_conjugate c with
  | Some d => if Req_EM_T (coef sq) 0 then Err ValueError else rbind (q_add sq (AQuad (b_quadratic (c_base d)))) (fun t => cone_sconj (set_cquad (cone_copy d) t))
  | None => if Req_EM_T (coef sq) 0 then Err ValueError else Err TypeError
  end.
(** affine_atom.smoothed, regreg/atoms/__init__.py:180-201: affine_smooth over the smoothed atom; its evaluation regreg/smooth/__init__.py:229-252.
    The quadratic of the affine_smooth is not touched. *)
Definition aa_smoothed (A : affine_atom) (sq : iq) : res (sconj * transform) :=
  rbind (aa_dual A) (fun Td => rbind (q_add sq (AQuad (a_quadratic (snd Td)))) (fun t =>
  if Req_EM_T (coef t) 0 then Err ValueError else rmap (fun C => (C, fst Td)) (atom_sconj (set_aquad (snd Td) t)))).
Definition pull (T : transform) (v : sval) : sval := match v with VFunc f => VFunc f | VGrad g => VGrad (t_adj T g) | VBoth f g => VBoth f (t_adj T g) end.
Definition asc_eval (p : sconj * transform) (x : vec) (m : smode_arg) : res (option sval) :=
  match m with EvOther => Ok None | _ => rmap (fun v => Some (pull (snd p) v)) (sc_eval (fst p) (t_aff (snd p) x) m) end.

(** conjugate, regreg/problems/conjugate.py:14-84, over an object with a proximal method. [own]: its quadratic *)
Record conj := mk_conj { cj_atom : nobj; cj_quadratic : iq; cj_negate : bool }.
Definition new_conj (A : nobj) (own : iq) (quadratic : option iq) (negate : bool) : res conj :=
  let q := match quadratic with Some q => q | None => zero_quad end in
  rbind (q_add own (AQuad q)) (fun t => if Req_EM_T (coef t) 0 then Err ValueError else Ok (mk_conj A q negate)).
Definition sub_linear (q : iq) (v : vec) : iq :=
  mk_iq (coef q) (center q) (match linear_term q with FNone => FVec (vopp v) | l => fop Rminus l (FVec v) end) (constant_term q).
Definition conj_eval (C : conj) (x : vec) (m : smode_arg) : res sval :=
  let v := if cj_negate C then vopp x else x in
  rbind (o_prox (cj_atom C) (sub_linear (cj_quadratic C) v)) (fun z =>
  let value := rbind (o_value (cj_atom C) z false) (fun e => rmap (fun val => - (0 + val) - q_func (cj_quadratic C) z + vsum (vmul v z)) (finite e)) in
  let grad := if cj_negate C then vopp z else z in
  match m with
  | EvBoth => rmap (fun f => VBoth f grad) value
  | EvFunc => rmap VFunc value
  | EvGrad => Ok (VGrad grad)
  | EvOther => Err ValueError
  end).
