(** Model of regreg/identity_quadratic.py. *)
From Coq Require Import Reals List.
From Verif Require Import Vec Spec.
Import ListNotations.
Local Open Scope R_scope.

(** The [center] and [linear_term] attributes: None, a Python float (0-d arrays
    are converted to float) or an ndarray.
    regreg/identity_quadratic.py:42-49. *)
Inductive fld := FNone | FScal (c : R) | FVec (v : vec).

(** Value of a field broadcast to shape (n,), None counting as 0 as in
    [objective] (regreg/identity_quadratic.py:111-116). *)
Definition fbcast (n : nat) (f : fld) : vec :=
  match f with FNone => zeros n | FScal c => const_vec n c | FVec v => v end.

(** Shape discipline: an ndarray field has the shape of the variable. numpy raises
    ValueError on other shapes; those inputs are outside the model. *)
Definition fshape (n : nat) (f : fld) : Prop :=
  match f with FVec v => length v = n | _ => True end.

(** numpy/Python arithmetic on non-None fields with broadcasting; None would raise
    TypeError, the callers below never pass it. *)
Definition fop (op : R -> R -> R) (a b : fld) : fld :=
  match a, b with
  | FScal x, FScal y => FScal (op x y)
  | FScal x, FVec v => FVec (map (op x) v)
  | FVec v, FScal y => FVec (map (fun t => op t y) v)
  | FVec v, FVec w => FVec (vzip op v w)
  | _, _ => FNone
  end.
Definition fscale (a : R) (f : fld) : fld :=
  match f with FNone => FNone | FScal c => FScal (a * c) | FVec v => FVec (vscal a v) end.
(** numpy.linalg.norm(f)**2; for a float c this is c**2 whatever the dimension. *)
Definition fsqnorm (f : fld) : R :=
  match f with FNone => 0 | FScal c => c * c | FVec v => sqn v end.

(** regreg/identity_quadratic.py:40-61. coef=None and constant_term=None are stored as 0,
    so both are plain reals here. *)
Record iq := mk_iq { coef : R; center : fld; linear_term : fld; constant_term : R }.

(** regreg/identity_quadratic.py:89-92 *)
Definition fzero (f : fld) : fld := match f with FNone => FScal 0 | _ => f end.
Definition zeroify (q : iq) : iq :=
  mk_iq (coef q) (fzero (center q)) (fzero (linear_term q)) (constant_term q).

Inductive obj_mode := MBoth | MFunc | MGrad | MOther.

(** r = x - center, regreg/identity_quadratic.py:113-116 *)
Definition q_resid (q : iq) (x : vec) : vec :=
  match center q with
  | FNone => x
  | FScal c => map (fun t => t - c) x
  | FVec m => vsub x m
  end.
(** (linear_term * x).sum() with linear_term None replaced by 0,
    regreg/identity_quadratic.py:111-112,119 *)
Definition q_linpart (q : iq) (x : vec) : R :=
  match linear_term q with
  | FNone => vsum (map (fun t => 0 * t) x)
  | FScal c => vsum (map (fun t => c * t) x)
  | FVec e => vsum (vmul e x)
  end.
(** coef * r + linear_term, regreg/identity_quadratic.py:120,131 *)
Definition q_gradpart (q : iq) (x : vec) : vec :=
  let r := map (Rmult (coef q)) (q_resid q x) in
  match linear_term q with
  | FNone => map (fun t => t + 0) r
  | FScal c => map (fun t => t + c) r
  | FVec e => vadd r e
  end.
Definition q_func (q : iq) (x : vec) : R :=
  sqn (q_resid q x) * coef q / 2 + q_linpart q x + constant_term q.

(** regreg/identity_quadratic.py:108-135. Result: (value, gradient), absent parts None. *)
Definition q_objective (q : iq) (x : vec) (m : obj_mode) : res (option R * option vec) :=
  match m with
  | MBoth => Ok (Some (q_func q x), Some (q_gradpart q x))
  | MFunc => Ok (Some (q_func q x), None)
  | MGrad => Ok (None, Some (q_gradpart q x))
  | MOther => Err ValueError
  end.

(** regreg/identity_quadratic.py:193-210 *)
Definition collapsed (q : iq) : iq :=
  let lin0 := FScal 0 in
  let lin1 := match center q with
              | FNone => lin0
              | c => fop Rminus lin0 (fscale (coef q) c)
              end in
  let cons1 := match center q with
               | FNone => constant_term q
               | c => constant_term q + coef q * fsqnorm c / 2
               end in
  let lin2 := match linear_term q with
              | FNone => lin1
              | l => fop Rplus lin1 l
              end in
  mk_iq (coef q) (FScal 0) lin2 cons1.

(** The right operand of [+]: None, another identity_quadratic, or anything else. *)
Inductive addend := ANone | AQuad (q : iq) | AOther.

(** regreg/identity_quadratic.py:140-158 *)
Definition q_add (q : iq) (o : addend) : res iq :=
  match o with
  | AOther => Err ValueError
  | ANone => Ok q
  | AQuad p =>
      let sc := collapsed q in
      let oc := collapsed p in
      Ok (mk_iq (coef sc + coef oc) (FScal 0)
                (fop Rplus (linear_term sc) (linear_term oc))
                (constant_term sc + constant_term oc))
  end.

(** all(offset == 0) *)
Fixpoint all_zero (x : vec) : bool :=
  match x with
  | [] => true
  | a :: x' => if Req_EM_T a 0 then all_zero x' else false
  end.

(** regreg/identity_quadratic.py:94-105. [cpq.center -= offset] raises TypeError when center
    is None. The returned offset is None when it was None or all zero. *)
Definition recenter (q : iq) (offset : option vec) : res (option vec * iq) :=
  let offset' := match offset with
                 | Some o => if all_zero o then None else Some o
                 | None => None
                 end in
  match offset' with
  | Some o =>
      match center q with
      | FNone => Err TypeError
      | c => Ok (Some o, collapsed (mk_iq (coef q) (fop Rminus c (FVec o)) (linear_term q) (constant_term q)))
      end
  | None => Ok (None, collapsed q)
  end.

(** regreg/identity_quadratic.py:244-256. For coef == 0 the relative import is outside the
    package and raises (ImportError; recorded as NameError). *)
Definition q_conjugate (q : iq) : res iq :=
  let a := collapsed q in
  if Req_EM_T (coef a) 0 then Err NameError
  else Ok (mk_iq (1 / coef a) (linear_term a) (FScal 0) (- constant_term a)).

(** regreg/identity_quadratic.py:237-242 *)
Definition true_center (q : iq) : option fld :=
  let a := collapsed q in
  if Rlt_dec 0 (coef a) then Some (fscale (/ coef a) (fscale (-1) (linear_term a))) else None.

(** regreg/identity_quadratic.py:174-191, with get_shapes (160-171) zeroifying first. The slice
    is a list of positions; out-of-range positions raise IndexError. *)
Fixpoint take_idx (idx : list nat) (x : vec) : res vec :=
  match idx with
  | [] => Ok []
  | i :: idx' =>
      match nth_error x i with
      | Some a => rmap (cons a) (take_idx idx' x)
      | None => Err IndexError
      end
  end.
Definition q_getitem (q : iq) (idx : list nat) : res iq :=
  let z := zeroify q in
  let part f := match f with
                | FVec v => rmap FVec (take_idx idx v)
                | _ => Ok f
                end in
  rbind (part (linear_term z)) (fun lt =>
  rbind (part (center z)) (fun ct =>
  Ok (mk_iq (coef z) ct lt 0))).

(** regreg/identity_quadratic.py:63-68 *)
Definition fiszero (f : fld) : bool :=
  match f with
  | FNone => true
  | FScal c => if Req_EM_T c 0 then true else false
  | FVec v => all_zero v
  end.
Definition iszero (q : iq) : bool :=
  ((if Req_EM_T (coef q) 0 then true else false) && fiszero (center q)
   && fiszero (linear_term q) && (if Req_EM_T (constant_term q) 0 then true else false))%bool.

(** The function a quadratic object denotes on R^n, by its documentation
    (regreg/identity_quadratic.py:5-10), and the shape precondition. *)
Definition q_denot (n : nat) (q : iq) (x : vec) : R :=
  quad_fun (coef q) (fbcast n (center q)) (fbcast n (linear_term q)) (constant_term q) x.
Definition q_shape (n : nat) (q : iq) : Prop := fshape n (center q) /\ fshape n (linear_term q).
