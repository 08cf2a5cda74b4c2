(** Model of regreg/atoms/slope.py. *)
From Coq Require Import Reals List Bool.
From Verif Require Import Vec Spec M_quad M_prox M_semi M_shift M_mode M_iso.
Import ListNotations.
Local Open Scope R_scope.

(** x[arg], regreg/atoms/slope.py:211 *)
Definition gather (x : vec) (arg : list nat) : vec := map (fun i => nth i x 0) arg.
(** out[arg] = vals, regreg/atoms/slope.py:217 *)
Fixpoint upd (i : nat) (v : R) (l : vec) : vec :=
  match l, i with
  | [], _ => []
  | _ :: l', O => v :: l'
  | a :: l', S i' => a :: upd i' v l'
  end.
Fixpoint scatter (arg : list nat) (vals out : vec) : vec :=
  match arg, vals with
  | i :: arg', v :: vals' => scatter arg' vals' (upd i v out)
  | _, _ => out
  end.
(** np.sort (increasing) and np.cumsum, regreg/atoms/slope.py:68,171-172 *)
Fixpoint ins_up (a : R) (l : vec) : vec :=
  match l with [] => [a] | b :: l' => if Rle_dec a b then a :: l else b :: ins_up a l' end.
Definition np_sort (x : vec) : vec := fold_right ins_up [] x.
Fixpoint cumsum_from (s : R) (x : vec) : vec := match x with [] => [] | a :: x' => (s + a) :: cumsum_from (s + a) x' end.
Definition cumsum : vec -> vec := cumsum_from 0.

(** _basic_proximal_map, regreg/atoms/slope.py:200-219. [arg] is the result of np.argsort(np.fabs(center)),
    [iso] is the isotonic regression used (sklearn's or pav). *)
Definition basic_proximal_map (iso : vec -> option vec) (arg : list nat) (center weights : vec) : res vec :=
  let shifted_center := vsub (gather (vabs center) arg) (rev weights) in
  match iso shifted_center with
  | None => Err OutOfFuel
  | Some fit =>
      let prox_val := map (fun a => Rmax a 0) fit in
      Ok (vmul (scatter arg prox_val (zeros (length prox_val))) (map sgn center))
  end.
Definition iso_py (y : vec) : option vec := pav (S (length y)) y.

(** slope.__init__, regreg/atoms/slope.py:40-61. np.allclose(a,b) is all |a-b| <= 1e-8 + 1e-5*|b|;
    the comparison is with the increasing sort of -weights *)
Definition allclose (a b : vec) : bool :=
  forallb (fun t => t) (map (fun p => if Rle_dec (Rabs (fst p - snd p)) (/ 10 ^ 8 + / 10 ^ 5 * Rabs (snd p)) then true else false) (combine a b)).
Definition slope_check (weights : vec) : res unit :=
  if allclose (vopp weights) (np_sort (vopp weights)) then
    if forallb (fun a => if Rlt_dec 0 a then true else false) weights then Ok tt else Err ValueError
  else Err ValueError.

Inductive slopeclass := SSlope | SSlopeConj.
Definition slope_pair (c : slopeclass) : slopeclass := match c with SSlope => SSlopeConj | SSlopeConj => SSlope end.

(** seminorm, regreg/atoms/slope.py:63-69 and 165-173 *)
Definition slope_seminorm (c : slopeclass) (weights x : vec) (lagrange : R) : res R :=
  let xsort := rev (np_sort (vabs x)) in
  match c with
  | SSlope => Ok (lagrange * vsum (vabs (vmul xsort weights)))
  | SSlopeConj => rmap (fun m => lagrange * m) (np_max (vabs (vzip Rdiv (cumsum xsort) (cumsum weights))))
  end.
(** constraint, regreg/atoms/slope.py:71-79 and 175-183 *)
Definition slope_constraint (c : slopeclass) (weights x : vec) (bound : R) : res ext :=
  rmap (fun s => if Rle_dec s (bound * (1 + tol)) then Fin 0 else PInf) (slope_seminorm c weights x 1).
(** lagrange_prox, regreg/atoms/slope.py:81-84 and 185-187 *)
Definition slope_lagrange_prox (iso : vec -> option vec) (argsort : vec -> list nat) (c : slopeclass) (weights x : vec) (lipschitz lagrange : R) : res vec :=
  match c with
  | SSlope => basic_proximal_map iso (argsort (vabs x)) x (map (fun w => w * lagrange / lipschitz) weights)
  | SSlopeConj => Err NotImplementedError
  end.
(** bound_prox, regreg/atoms/slope.py:86-88 and 189-198 *)
Definition slope_bound_prox (iso : vec -> option vec) (argsort : vec -> list nat) (c : slopeclass) (weights x : vec) (bound : R) : res vec :=
  match c with
  | SSlope => Err NotImplementedError
  | SSlopeConj => rmap (vsub x) (basic_proximal_map iso (argsort (vabs x)) x (map (fun w => w * bound) weights))
  end.

(** The slope and slope_conjugate objects: class, weights, and the inherited seminorm fields; regreg/atoms/slope.py:40-61 *)
Record slope_atom := mk_slope { s_class : slopeclass; s_weights : vec; s_moded : moded }.
Definition new_slope (c : slopeclass) (weights : vec) (lagrange bound : option R) (offset : option vec) (quadratic : option iq) : res slope_atom :=
  rbind (slope_check weights) (fun _ => rmap (mk_slope c weights) (new_moded (length weights) lagrange bound offset quadratic)).
Definition slope_proximal (iso : vec -> option vec) (argsort : vec -> list nat) (a : slope_atom) (quadratic : addend) : res vec :=
  moded_proximal (slope_lagrange_prox iso argsort (s_class a) (s_weights a)) (slope_bound_prox iso argsort (s_class a) (s_weights a)) (s_moded a) quadratic.
Definition slope_objective (a : slope_atom) (x : vec) (chk : bool) : res ext :=
  moded_objective (fun y lam _ => rmap Fin (slope_seminorm (s_class a) (s_weights a) y lam)) (slope_constraint (s_class a) (s_weights a)) (s_moded a) x chk.
(** get_conjugate, regreg/atoms/slope.py:129-152; smooth_conjugate is not imported (NameError) *)
Definition slope_conjugate (a : slope_atom) : res slope_atom :=
  match moded_conjugate (s_moded a) with
  | Some r => rbind (slope_check (s_weights a)) (fun _ => rmap (mk_slope (slope_pair (s_class a)) (s_weights a)) r)
  | None => Err NameError
  end.
