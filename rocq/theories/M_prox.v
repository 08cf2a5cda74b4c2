(** Model of regreg/atoms/piecewise_linear.pyx, regreg/atoms/projl1_cython.pyx and of the
    seminorm classes of regreg/atoms/seminorms.py. *)
From Coq Require Import Reals List Bool.
From Verif Require Import Vec Spec M_quad.
Import ListNotations.
Local Open Scope R_scope.

(** ** piecewise_linear.pyx *)

(** np.argsort, read from the largest key down as the loops do (order[q-1], order[q-2], ...);
    pairs carry the squared weight of the knot. Any order of tied knots is as good as another
    for the theorems (proved for every descending arrangement). *)
Fixpoint insert_desc (p : R * R) (l : list (R * R)) : list (R * R) :=
  match l with
  | [] => [p]
  | q :: l' => if Rle_dec (fst q) (fst p) then p :: l else q :: insert_desc p l'
  end.
Definition sort_desc (l : list (R * R)) : list (R * R) := fold_right insert_desc [] l.

(** The scanning loop, regreg/atoms/piecewise_linear.pyx:58-77, 123-143 and 174-194.
    [s] is the squared weight of the knot curX (1 in the unweighted versions);
    the final division raises ZeroDivisionError (Cython default) on a zero slope. *)
Definition pl_final (b slope curX curV : R) : res R :=
  let intercept := curV - curX * slope in
  if Req_EM_T slope 0 then Err ZeroDivisionError else Ok ((b - intercept) / slope).
Fixpoint pl_scan (b slope curX curV s : R) (rest : list (R * R)) : res R :=
  let slope' := slope - s in
  match rest with
  | [] => pl_final b slope' curX curV
  | (nextX, s') :: rest' =>
      let nextV := curV + slope' * (nextX - curX) in
      if Rlt_dec b nextV then pl_final b slope' curX curV
      else pl_scan b slope' nextX nextV s' rest'
  end.
Definition pl_start (b slope : R) (knots : list (R * R)) : res R :=
  match knots with
  | [] => Err IndexError     (* knots[order[q-1]] with q = 0 *)
  | (x, s) :: rest => pl_scan b (- slope) x (- slope * x) s rest
  end.

(** regreg/atoms/piecewise_linear.pyx:80-144 *)
Definition find_solution_piecewise_linear_c (b slope : R) (norms : vec) : res R :=
  if Rlt_dec (vsum norms) b then Ok 0
  else pl_start b slope (sort_desc (map (fun x => (x, 1)) norms)).

(** regreg/atoms/piecewise_linear.pyx:11-78. Weights are finite here. *)
Fixpoint knots_of (norms weights : vec) : list (R * R) :=
  match norms, weights with
  | x :: n', w :: w' => (x / Rmax w (/ 10 ^ 20), w * w) :: knots_of n' w'
  | _, _ => []
  end.
Definition find_solution_piecewise_linear (b slope : R) (norms weights : vec) : res R :=
  if Rlt_dec (vsum (vmul weights norms)) b then Ok 0
  else pl_start b slope (sort_desc (knots_of norms weights)).

(** regreg/atoms/piecewise_linear.pyx:146-195 *)
Definition find_solution_piecewise_linear_uncon (b : R) (values : vec) : res R :=
  pl_start b 0 (sort_desc (map (fun x => (x, 1)) values)).

(** ** projl1_cython.pyx *)

(** regreg/atoms/projl1_cython.pyx:29-48 *)
Definition soft1 (lagrange xi : R) : R :=
  if Rlt_dec 0 xi then
    if Rlt_dec xi lagrange then 0 else xi - lagrange
  else
    if Rlt_dec (- lagrange) xi then 0 else xi + lagrange.
Definition soft_threshold (x : vec) (lagrange : R) : vec := map (soft1 lagrange) x.

(** regreg/atoms/projl1_cython.pyx:17-27; [cut < np.inf] always holds for real cuts. *)
Definition projl1 (x : vec) (bound : R) : res vec :=
  rbind (find_solution_piecewise_linear_c bound 0 (vabs x)) (fun cut =>
  Ok (soft_threshold x cut)).

(** ** seminorms.py, elementary numpy operations *)

(** np.sign *)
Definition sgn (a : R) : R := if Rlt_dec 0 a then 1 else if Rlt_dec a 0 then -1 else 0.
(** Boolean masks: arg > 0, v[pos], v[pos] = values *)
Definition posb (a : R) : bool := if Rlt_dec 0 a then true else false.
Definition select_pos (x : vec) : vec := filter posb x.
(** [put_pos x base vals] is [base] with its entries at positions where x > 0 replaced, in order,
    by [vals]; numpy guarantees the lengths agree. *)
Fixpoint put_pos (x base vals : vec) : vec :=
  match x, base with
  | a :: x', c :: base' =>
      if posb a then
        match vals with
        | v :: vals' => v :: put_pos x' base' vals'
        | [] => c :: put_pos x' base' []
        end
      else c :: put_pos x' base' vals
  | _, _ => []
  end.
Definition any_pos (x : vec) : bool := existsb posb x.
(** np.max raises ValueError on an empty array *)
Definition np_max (x : vec) : res R :=
  match x with [] => Err ValueError | a :: x' => Ok (fold_left Rmax x' a) end.
(** np.clip *)
Definition clip (lo hi : R) (x : vec) : vec := map (fun a => Rmin (Rmax a lo) hi) x.
(** atom.tol, regreg/atoms/__init__.py:26 *)
Definition tol : R := / 10 ^ 5.
Definition any_below (t : R) (x : vec) : bool := existsb (fun a => if Rlt_dec a t then true else false) x.

(** Soft-threshold written with np.sign, regreg/atoms/seminorms.py:654 *)
Definition l1_lagrange (x : vec) (r : R) : vec := map (fun a => sgn a * Rmax (Rabs a - r) 0) x.
(** sign(arg) * (absarg - cut) * (absarg > cut), regreg/atoms/seminorms.py:661-664 and 724-728 *)
Definition l1_cutoff (x : vec) (cut : R) : vec :=
  map (fun a => sgn a * (Rabs a - cut) * (if Rlt_dec cut (Rabs a) then 1 else 0)) x.
Definition l1_project (x : vec) (bound : R) : res vec :=
  rbind (find_solution_piecewise_linear_c bound 0 (vabs x)) (fun cut => Ok (l1_cutoff x cut)).

(** ** lagrange_prox(arg, lipschitz, lagrange) of each class *)
Definition lagrange_prox (c : snclass) (arg : vec) (lipschitz lagrange : R) : res vec :=
  match c with
  | CL1 => (* seminorms.py:650-654 *)
      Ok (l1_lagrange arg (lagrange / lipschitz))
  | CSup => (* seminorms.py:718-729 *)
      rbind (l1_project arg (lagrange / lipschitz)) (fun proj => Ok (vsub arg proj))
  | CL2 => (* seminorms.py:792-800 *)
      let n := norm arg in
      let proj := if Rle_dec n (lagrange / lipschitz) then arg
                  else vscal (lagrange / (lipschitz * n)) arg in
      Ok (vsub arg proj)
  | CPosPart => (* seminorms.py:884-892 *)
      Ok (put_pos arg arg (map (fun a => Rmax (a - lagrange / lipschitz) 0) (select_pos arg)))
  | CConMax => (* seminorms.py:967-976 *)
      if any_pos arg then
        rbind (projl1 (select_pos arg) (lagrange / lipschitz)) (fun pv =>
        Ok (vsub arg (put_pos arg arg pv)))
      else Ok (vsub arg arg)
  | CConPosPart => (* seminorms.py:1041-1050 *)
      if any_pos arg then
        Ok (put_pos arg (zeros (length arg))
              (map (fun a => Rmax (a - lagrange / lipschitz) 0) (select_pos arg)))
      else Ok (zeros (length arg))
  | CMaxPos => (* seminorms.py:1122-1132 *)
      if any_pos arg then
        rbind (projl1 (select_pos arg) (lagrange / lipschitz)) (fun pv =>
        Ok (vsub arg (put_pos arg (zeros (length arg)) pv)))
      else Ok (vsub arg (zeros (length arg)))
  end.

(** ** bound_prox(arg, bound) of each class *)
Definition bound_prox (c : snclass) (arg : vec) (bound : R) : res vec :=
  match c with
  | CL1 => (* seminorms.py:656-664 *) l1_project arg bound
  | CSup => (* seminorms.py:731-734 *) Ok (clip (- bound) bound arg)
  | CL2 => (* seminorms.py:802-809 *)
      let n := norm arg in
      if Rle_dec n bound then Ok arg else Ok (vscal (bound / n) arg)
  | CPosPart => (* seminorms.py:894-904 *)
      if any_pos arg then
        rbind (projl1 (select_pos arg) bound) (fun pv => Ok (put_pos arg arg pv))
      else Ok arg
  | CConMax => (* seminorms.py:978-981 *) Ok (clip 0 bound arg)
  | CConPosPart => (* seminorms.py:1052-1061 *)
      if any_pos arg then
        rbind (projl1 (select_pos arg) bound) (fun pv => Ok (put_pos arg (zeros (length arg)) pv))
      else Ok (zeros (length arg))
  | CMaxPos => (* seminorms.py:1117-1120 *) Ok (map (fun a => Rmin a bound) arg)
  end.

(** ** seminorm(arg, lagrange, check_feasibility) of each class *)
Definition seminorm_value (c : snclass) (arg : vec) (lagrange : R) (check_feasibility : bool) : res ext :=
  match c with
  | CL1 => (* seminorms.py:633-638 *) Ok (Fin (lagrange * vsum (vabs arg)))
  | CSup => (* 703-708 *) rmap (fun m => Fin (lagrange * m)) (np_max (vabs arg))
  | CL2 => (* 776-781 *) Ok (Fin (lagrange * norm arg))
  | CPosPart => (* 868-873 *) Ok (Fin (lagrange * vsum (map (fun a => Rmax a 0) arg)))
  | CConMax => (* 946-955 *)
      let anyneg := any_below (0 + tol) arg in
      rmap (fun m => if negb anyneg || negb check_feasibility then Fin (lagrange * m) else PInf) (np_max arg)
  | CConPosPart => (* 1023-1032 *)
      let anyneg := any_below (0 + tol) arg in
      let v := vsum (map (fun a => Rmax a 0) arg) in
      Ok (if negb anyneg || negb check_feasibility then Fin (v * lagrange) else PInf)
  | CMaxPos => (* 1102-1107 *) rmap (fun m => Fin (m * lagrange)) (np_max (map (fun a => Rmax a 0) arg))
  end.

(** ** constraint(arg, bound) of each class: 0 or inf *)
Definition ok_or_inf (b : bool) : ext := if b then Fin 0 else PInf.
Definition rleb (a b : R) : bool := if Rle_dec a b then true else false.
Definition constraint_value (c : snclass) (arg : vec) (bound : R) : res ext :=
  match c with
  | CL1 => (* 641-648 *) Ok (ok_or_inf (rleb (vsum (vabs arg)) (bound * (1 + tol))))
  | CSup => (* 710-716 *) Ok (ok_or_inf (forallb (fun a => rleb (Rabs a) (bound * (1 + tol))) arg))
  | CL2 => (* 783-790 *) Ok (ok_or_inf (rleb (norm arg) (bound * (1 + tol))))
  | CPosPart => (* 875-882 *) Ok (ok_or_inf (rleb (vsum (map (fun a => Rmax a 0) arg)) (bound * (1 + tol))))
  | CConMax => (* 957-965 *)
      let anyneg := any_below (0 + tol) arg in
      rmap (fun m => ok_or_inf (rleb m (bound * (1 + tol)) && negb anyneg)) (np_max arg)
  | CConPosPart => (* 1034-1039 *)
      rmap (fun v => match v with
                     | PInf => PInf
                     | Fin r => if Rle_dec (bound * (1 + tol)) r then PInf else Fin 0
                     end) (seminorm_value CConPosPart arg 1 true)
  | CMaxPos => (* 1109-1115 *)
      rmap (fun v => if Rle_dec (bound * (1 + tol)) v then PInf else Fin 0)
           (np_max (map (fun a => Rmax a 0) arg))
  end.
