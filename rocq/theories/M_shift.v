(** Model of the code every atom class of regreg shares: the offset, the quadratic, the proximal
    driver and the bookkeeping part of the conjugate. *)
From Coq Require Import Reals List Bool.
From Verif Require Import Vec Spec M_quad M_prox M_semi.
Import ListNotations.
Local Open Scope R_scope.

(** Attributes common to all atoms (regreg/problems/composite.py:21-39, regreg/atoms/cones.py
    inherits the constructor of regreg/problems/composite.py; regreg/atoms/seminorms.py:34-58). *)
Record base := mk_base { b_shape : nat; b_offset : option vec; b_quadratic : iq }.

(** regreg/problems/composite.py:21-39: quadratic=None becomes the zero quadratic, an all-zero
    offset is not stored. *)
Definition new_base (n : nat) (offset : option vec) (quadratic : option iq) : base :=
  mk_base n (fresh_offset offset)
    (match quadratic with Some q => q | None => mk_iq 0 (FScal 0) (FScal 0) 0 end).

(** The body of [proximal], the same text in regreg/atoms/seminorms.py:325-345 and
    regreg/atoms/cones.py:196-208; [inner prox_arg coef] is the class's own prox method. *)
Definition shifted_prox (g : base) (quadratic : addend) (inner : vec -> R -> res vec) : res vec :=
  rbind (q_add (b_quadratic g) quadratic) (fun s =>
  rbind (recenter s (b_offset g)) (fun ot =>
  let '(offset, totalq) := ot in
  if Req_EM_T (coef totalq) 0 then Err ValueError
  else
    match linear_term totalq with
    | FVec l =>
        let prox_arg := map (fun t => - t / coef totalq) l in
        let eta := inner prox_arg (coef totalq) in
        match offset with
        | None => eta
        | Some o => rmap (fun e => vadd e o) eta
        end
    | _ => Err TypeError
    end)).

(** apply_offset, regreg/problems/composite.py:111-117 *)
Definition base_apply_offset (g : base) (x : vec) : vec :=
  match b_offset g with Some o => vsub x o | None => x end.

(** nonsmooth_objective: [value (x - offset)] plus the quadratic at x,
    regreg/atoms/seminorms.py:481-490 and regreg/atoms/cones.py:150-157. *)
Definition shifted_objective (g : base) (x : vec) (value : vec -> res ext) : res ext :=
  rmap (fun v => ext_add v (Fin (q_func (b_quadratic g) x))) (value (base_apply_offset g x)).

(** The offset and quadratic given to the conjugate's constructor,
    regreg/atoms/__init__.py:203-226 as used in regreg/atoms/seminorms.py:185-196 and
    regreg/atoms/cones.py:71-79; None when quadratic.coef != 0 (smooth_conjugate branch). *)
Definition conjugate_base (g : base) : option base :=
  if Req_EM_T (coef (b_quadratic g)) 0 then
    let '(o, outq) := work_out_conjugate (b_shape g) (b_offset g) (b_quadratic g) in
    Some (new_base (b_shape g) o (Some outq))
  else None.
