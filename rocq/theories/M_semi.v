(** Model of the atom objects of regreg/atoms/seminorms.py: construction, modes, proximal,
    objective, conjugate; with the parts of regreg/problems/composite.py and
    regreg/atoms/__init__.py they inherit. *)
From Coq Require Import Reals List Bool.
From Verif Require Import Vec Spec M_quad M_prox.
Import ListNotations.
Local Open Scope R_scope.

(** The instance attributes. [offset] has the shape of the variable (0-d offsets, which numpy
    broadcasts, are represented by their broadcast). *)
Record atom := mk_atom {
  klass : snclass; shape : nat;
  a_lagrange : option R; a_bound : option R;
  a_offset : option vec; a_quadratic : iq }.

(** composite.set_offset on a fresh object, regreg/problems/composite.py:41-52: an all-zero offset
    is not stored and reads back as None. *)
Definition fresh_offset (o : option vec) : option vec :=
  match o with
  | Some v => if all_zero v then None else Some v
  | None => None
  end.
(** The same setter on an object which already has an offset: an all-zero value leaves the old one. *)
Definition set_offset (a : atom) (o : option vec) : atom :=
  mk_atom (klass a) (shape a) (a_lagrange a) (a_bound a)
    (match o with
     | Some v => if all_zero v then a_offset a else Some v
     | None => None
     end) (a_quadratic a).

(** regreg/atoms/seminorms.py:34-58 and regreg/problems/composite.py:21-39 *)
Definition is_neg (r : option R) : bool :=
  match r with Some v => if Rlt_dec v 0 then true else false | None => false end.
Definition new_atom (c : snclass) (n : nat) (lagrange bound : option R) (offset : option vec)
    (quadratic : option iq) : res atom :=
  match lagrange, bound with
  | Some _, Some _ => Err ValueError
  | None, None => Err ValueError
  | _, _ =>
      if is_neg bound then Err ValueError
      else if is_neg lagrange then Err ValueError
      else Ok (mk_atom c n lagrange bound (fresh_offset offset)
                 (match quadratic with Some q => q | None => mk_iq 0 (FScal 0) (FScal 0) 0 end))
  end.

(** regreg/atoms/seminorms.py:220-242 *)
Definition set_lagrange (a : atom) (v : option R) : res atom :=
  match a_bound a with
  | None => Ok (mk_atom (klass a) (shape a) v (a_bound a) (a_offset a) (a_quadratic a))
  | Some _ => Err AttributeError
  end.
(** regreg/atoms/seminorms.py:260-281 *)
Definition set_bound (a : atom) (v : option R) : res atom :=
  match a_lagrange a with
  | None => Ok (mk_atom (klass a) (shape a) (a_lagrange a) v (a_offset a) (a_quadratic a))
  | Some _ => Err AttributeError
  end.

(** regreg/atoms/seminorms.py:1173-1195: the module-level get_lagrange/get_bound *)
Definition need (v dflt : option R) : res R :=
  match v with
  | Some r => Ok r
  | None => match dflt with Some r => Ok r | None => Err ValueError end
  end.

(** regreg/atoms/seminorms.py:285-345. [-totalq.linear_term / totalq.coef] is an array as soon as
    one of the fields is; a call in which every field is a float hands a float to the prox methods,
    which is outside the model (TypeError here). *)
Definition proximal (a : atom) (quadratic : addend) : res vec :=
  rbind (q_add (a_quadratic a) quadratic) (fun s =>
  rbind (recenter s (a_offset a)) (fun ot =>
  let '(offset, totalq) := ot in
  if Req_EM_T (coef totalq) 0 then Err ValueError
  else
    match linear_term totalq with
    | FVec l =>
        let prox_arg := map (fun t => - t / coef totalq) l in
        let eta := match a_bound a with
                   | Some b => bound_prox (klass a) prox_arg b
                   | None => rbind (need (a_lagrange a) None) (fun lam =>
                             lagrange_prox (klass a) prox_arg (coef totalq) lam)
                   end in
        match offset with
        | None => eta
        | Some o => rmap (fun e => vadd e o) eta
        end
    | _ => Err TypeError
    end)).

(** composite.apply_offset, regreg/problems/composite.py:111-117 *)
Definition apply_offset (a : atom) (x : vec) : vec :=
  match a_offset a with Some o => vsub x o | None => x end.

(** regreg/atoms/seminorms.py:451-490 *)
Definition nonsmooth_objective (a : atom) (x : vec) (check_feasibility : bool) : res ext :=
  let xo := apply_offset a x in
  let value := match a_bound a with
               | Some b => if check_feasibility then constraint_value (klass a) xo b else Ok (Fin 0)
               | None => rbind (need (a_lagrange a) None) (fun lam =>
                         seminorm_value (klass a) xo lam check_feasibility)
               end in
  rmap (fun v => ext_add v (Fin (q_func (a_quadratic a) x))) value.

(** conjugate_seminorm_pairs, regreg/atoms/seminorms.py:1163-1169 *)
Definition pair_class (c : snclass) : snclass :=
  match c with
  | CL1 => CSup | CSup => CL1
  | CL2 => CL2
  | CPosPart => CConMax | CConMax => CPosPart
  | CConPosPart => CMaxPos | CMaxPos => CConPosPart
  end.

(** regreg/atoms/__init__.py:203-226. The product offset*linear_term is summed by np.sum; for a
    float times a float it is the product itself. *)
Definition fsum_prod (o : option vec) (l : fld) : R :=
  match o, l with
  | None, FVec v => vsum (map (Rmult 0) v)
  | None, _ => 0
  | Some ov, FNone => vsum (map (fun t => t * 0) ov)
  | Some ov, FScal c => vsum (map (fun t => t * c) ov)
  | Some ov, FVec v => vsum (vmul ov v)
  end.
Definition work_out_conjugate (n : nat) (o : option vec) (q : iq) : option vec * iq :=
  let outq := mk_iq 0 (FScal 0) (match o with Some ov => FVec ov | None => FScal 0 end)
                (- constant_term q - fsum_prod o (linear_term q)) in
  let outoffset := match linear_term q with
                   | FNone => None
                   | FScal c => Some (const_vec n c)
                   | FVec v => Some v
                   end in
  (outoffset, outq).

(** regreg/atoms/seminorms.py:177-202, the branch quadratic.coef == 0. The other branch returns a
    smooth_conjugate (modelled elsewhere); here it is an error value. *)
Definition get_conjugate (a : atom) : res atom :=
  if Req_EM_T (coef (a_quadratic a)) 0 then
    let '(o, outq) := work_out_conjugate (shape a) (a_offset a) (a_quadratic a) in
    new_atom (pair_class (klass a)) (shape a) (a_bound a) (a_lagrange a) o (Some outq)
  else Err NotImplementedError.

(** regreg/atoms/seminorms.py:838-853 *)
Definition positive_part_lagrange (n : nat) (lagrange : R) (offset : option vec) (quadratic : option iq) : res atom :=
  let linq := mk_iq 0 (FScal 0) (FVec (const_vec n (1 * (1/2) * lagrange))) 0 in
  rbind (match quadratic with Some q => q_add linq (AQuad q) | None => Ok linq end) (fun linq' =>
  new_atom CL1 n (Some (1/2 * lagrange)) None offset (Some linq')).

(** __eq__, regreg/atoms/seminorms.py:129-134 *)
Definition oeq (a b : option R) : bool :=
  match a, b with
  | Some x, Some y => if Req_EM_T x y then true else false
  | None, None => true
  | _, _ => false
  end.
Definition class_eqb (c d : snclass) : bool :=
  match c, d with
  | CL1, CL1 | CSup, CSup | CL2, CL2 | CPosPart, CPosPart | CConMax, CConMax
  | CConPosPart, CConPosPart | CMaxPos, CMaxPos => true
  | _, _ => false
  end.
Definition atom_eq (a b : atom) : bool :=
  if class_eqb (klass a) (klass b) then
    match a_bound a with
    | Some _ => oeq (a_bound a) (a_bound b)
    | None => oeq (a_lagrange a) (a_lagrange b)
    end
  else false.

(** __copy__, regreg/atoms/seminorms.py:136-141 *)
Definition copy_atom (a : atom) : res atom :=
  new_atom (klass a) (shape a) (a_lagrange a) (a_bound a) (a_offset a) (Some (a_quadratic a)).

(** Histories of reads and assignments (C10). *)
Inductive sn_op := GetLagrange | GetBound | SetLagrange (v : option R) | SetBound (v : option R).
(** A raised exception leaves the object as it was. *)
Definition sn_step (a : atom) (o : sn_op) : atom * option exn :=
  match o with
  | GetLagrange | GetBound => (a, None)
  | SetLagrange v => match set_lagrange a v with Ok a' => (a', None) | Err e => (a, Some e) end
  | SetBound v => match set_bound a v with Ok a' => (a', None) | Err e => (a, Some e) end
  end.
Fixpoint sn_run (a : atom) (l : list sn_op) : atom :=
  match l with [] => a | o :: l' => sn_run (fst (sn_step a o)) l' end.
