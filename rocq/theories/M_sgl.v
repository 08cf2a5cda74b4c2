(** Model of regreg/atoms/sparse_group_lasso.py. Feature weights may be infinite ([ext]); group weights are finite. *)
From Coq Require Import Reals List ZArith Bool.
From Verif Require Import Vec Spec M_quad M_prox M_semi M_shift M_mode M_mixed M_weighted M_group.
Import ListNotations.
Local Open Scope R_scope.

(** A sparse_group_lasso (dual = false) or sparse_group_lasso_dual (true) object. [s_weights] is the dictionary after
    construction. The attribute _weighted_l1norm has the weights [s_lasso] and every call of it passes its own
    multiplier, so the weights are all that is kept of it. *)
Record sgl := mk_sgl { s_dual : bool; s_groups : list Z; s_lasso : list ext; s_weights : Z -> option R; s_moded : moded }.
(** lasso_weights * np.ones(shape) when the shapes differ, regreg/atoms/sparse_group_lasso.py:57-59: a number or an
    array with one entry is repeated, any other length cannot be broadcast *)
Definition spread (n : nat) (lw : list ext) : res (list ext) :=
  if Nat.eqb (length lw) n then Ok lw else match lw with [c] => Ok (repeat c n) | _ => Err ValueError end.
(** __init__, regreg/atoms/sparse_group_lasso.py:38-63. The l1 norm made at 60-62 rejects negative weights; its
    conjugate (63) rejects nothing more. *)
Definition new_sgl (dual : bool) (groups : list Z) (lw : list ext) (weights : Z -> option R) (lagrange bound : option R) (offset : option vec) (quadratic : option iq) : res sgl :=
  rbind (new_gatom false groups weights lagrange bound offset quadratic) (fun g =>
  rbind (spread (length groups) lw) (fun lw' =>
  rbind (new_watom WL1 lw' lagrange bound None None) (fun _ =>
  Ok (mk_sgl dual groups lw' (g_weights g) (g_moded g))))).

(** sparse_group_lasso.seminorm, regreg/atoms/sparse_group_lasso.py:66-81 *)
Definition s_seminorm (groups : list Z) (lw : list ext) (weights : Z -> option R) (x : vec) (lagrange : R) (chk : bool) : res ext :=
  rbind (g_seminorm false groups weights x lagrange) (fun v =>
  rbind (w_seminorm WL1 lw x lagrange chk) (fun u => Ok (ext_add v u))).
(** sparse_group_lasso.constraint, 84-92 *)
Definition s_constraint (groups : list Z) (lw : list ext) (weights : Z -> option R) (x : vec) (bound : R) : res ext :=
  rmap (fun s => match s with Fin r => if Rle_dec r (bound * (1 + tol)) then Fin 0 else PInf | PInf => PInf end) (s_seminorm groups lw weights x 1 true).
(** sparse_group_lasso.lagrange_prox, 95-113 *)
Definition s_lagrange_prox (groups : list Z) (lw : list ext) (weights : Z -> option R) (x : vec) (lipschitz lagrange : R) : res vec :=
  rbind (w_lagrange_prox WL1 lw x lipschitz lagrange) (fun initial_proj => g_lagrange_prox false groups weights initial_proj lipschitz lagrange).
(** sparse_group_lasso.bound_prox, 116-117, and sparse_group_lasso_dual.lagrange_prox, 269-270 *)
Definition s_bound_prox (x : vec) (bound : R) : res vec := Err NotImplementedError.
Definition sd_lagrange_prox (x : vec) (lipschitz lagrange : R) : res vec := Err NotImplementedError.
(** terms, 129-157, for finite feature weights *)
Definition s_terms (groups : list Z) (lw : vec) (weights : Z -> option R) (x : vec) : vec :=
  map (fun g => norm (zpick g groups x) * weight_of weights groups g + vsum (vabs (vmul (zpick g groups x) (zpick g groups lw)))) (g_ids groups).

(** base_conjugate, 239-254: the test looks for an attribute that is never set, so a new object is built each time.
    [own_bound] is self.bound, which is None for an object in Lagrange mode. *)
Definition base_conjugate (groups : list Z) (lw : list ext) (weights : Z -> option R) (own_bound : option R) : res sgl :=
  new_sgl false groups lw weights own_bound None None None.
(** inside_set, 303-326, for an atom of class sparse_group_lasso *)
Definition inside_set (b : sgl) (point : vec) : res bool :=
  rmap (fun r => let proj_point := vsub point r in
        if Rlt_dec (Rmax (norm point) 1 * / 10 ^ 7) (norm (vsub proj_point point)) then false else true)
    (s_lagrange_prox (s_groups b) (s_lasso b) (s_weights b) point 1 1).

(** The search shared by gauge_function_dual (340-391), _gauge_function_dual_strong (427-490) and
    regreg/atoms/sparse_group_block.py:_gauge_function_dual (288-352); [inside t] is the test made at the candidate
    value t. First loop, 347-362: lower is halved; [None] is "return 0". max_iter = 0 is never met by the counter. *)
Fixpoint halve (inside : R -> res bool) (max_iter : nat) (lower upper : R) : res (option (R * R)) :=
  match max_iter with
  | O => Err OutOfFuel
  | S k => let lower' := lower / 2 in
      rbind (inside lower') (fun b => if negb b then Ok (Some (lower', upper)) else
      match k with O => Ok None | S _ => halve inside k lower' lower' end)
  end.
(** Second loop, 363-378: upper is doubled; [None] is "return np.inf" *)
Fixpoint double (inside : R -> res bool) (max_iter : nat) (lower upper : R) : res (option (R * R)) :=
  match max_iter with
  | O => Err OutOfFuel
  | S k => let upper' := upper * 2 in
      rbind (inside upper') (fun b => if b then Ok (Some (lower, upper')) else
      match k with O => Ok None | S _ => double inside k upper' upper' end)
  end.
(** 380-392; [mid] is unbound before the first pass *)
Fixpoint bisect (inside : R -> res bool) (rtol : R) (fuel : nat) (lower upper : R) (mid : option R) : res R :=
  match fuel with
  | O => Err OutOfFuel
  | S k =>
      if Rlt_dec (rtol * (1 / 2) * (upper + lower)) (upper - lower) then
        let m := 1 / 2 * (upper + lower) in
        rbind (inside m) (fun b => if b then bisect inside rtol k lower m (Some m) else bisect inside rtol k m upper (Some m))
      else match mid with Some m => Ok m | None => Err NameError end
  end.
Definition check (b : res bool) (expected : bool) : res unit :=
  rbind b (fun v => if Bool.eqb v expected then Ok tt else Err AssertionError).
Definition search (inside : R -> res bool) (rtol : R) (max_iter fuel : nat) : res ext :=
  rbind (inside 1) (fun b =>
  rbind (if b then halve inside max_iter 1 1 else double inside max_iter 1 1) (fun o =>
  match o with
  | None => Ok (if b then Fin 0 else PInf)
  | Some (lower, upper) =>
      rbind (check (inside lower) false) (fun _ => rbind (check (inside upper) true) (fun _ =>
      rmap Fin (bisect inside rtol fuel lower upper None)))
  end)).
(** gauge_function_dual, 328-392 *)
Definition gauge_function_dual (b : sgl) (point : vec) (fuel : nat) : res ext :=
  search (fun t => inside_set b (map (fun a => a / t) point)) (/ 10 ^ 10) 50 fuel.

(** _inside_set_strong, 403-411 *)
Definition soft_pos (lw : vec) (bound : R) (point : vec) : vec := vzip (fun a w => Rmax (Rabs a - bound * w) 0) point lw.
Definition inside_set_strong (point : vec) (bound : R) (lw : vec) (group_weight : R) : bool :=
  if Rle_dec (norm (soft_pos lw bound point)) (bound * (group_weight + / 10 ^ 5)) then true else false.
(** _gauge_function_dual_strong, 413-495. The last component is None where the code divides 0 by 0. *)
Definition gauge_function_dual_strong (point lw : vec) (group_weight : R) (fuel : nat) : res (ext * option (vec * option vec)) :=
  rmap (fun r => match r with
    | Fin mid => if Req_EM_T mid 0 then (Fin 0, None)
        else let soft_thresh := vmul (soft_pos lw mid point) (map sgn point) in
          (r, Some (vsub point soft_thresh,
               if Req_EM_T (norm soft_thresh) 0 then None else Some (map (fun a => a / norm soft_thresh * group_weight * mid) soft_thresh)))
    | PInf => (PInf, None) end)
  (search (fun t => Ok (inside_set_strong point t lw group_weight)) (/ 10 ^ 6) 50 fuel).

(** sparse_group_lasso_dual: seminorm 257-261, constraint 264-266, bound_prox 273-276, terms 278-301 *)
Definition sd_seminorm (groups : list Z) (lw : list ext) (weights : Z -> option R) (own_bound : option R) (x : vec) (lagrange : R) (fuel : nat) : res ext :=
  rbind (base_conjugate groups lw weights own_bound) (fun b => rmap (fun v => match v with Fin r => Fin (r * lagrange) | PInf => PInf end) (gauge_function_dual b x fuel)).
(** The Python value True or False is then used as the number 1 or 0 *)
Definition sd_constraint (groups : list Z) (lw : list ext) (weights : Z -> option R) (own_bound : option R) (x : vec) (bound : R) : res ext :=
  rbind (base_conjugate groups lw weights own_bound) (fun b => rmap (fun v : bool => Fin (if v then 1 else 0)) (inside_set b x)).
Definition sd_bound_prox (groups : list Z) (lw : list ext) (weights : Z -> option R) (own_bound : option R) (x : vec) (bound : R) : res vec :=
  rbind (base_conjugate groups lw weights own_bound) (fun b => rmap (vsub x) (s_lagrange_prox (s_groups b) (s_lasso b) (s_weights b) x 1 bound)).
Definition sd_terms (groups : list Z) (lw : vec) (weights : Z -> option R) (x : vec) (fuel : nat) : list (res ext) :=
  map (fun g => rmap fst (gauge_function_dual_strong (zpick g groups x) (zpick g groups lw) (weight_of weights groups g) fuel)) (g_ids groups).

Definition sgl_proximal (a : sgl) (quadratic : addend) : res vec :=
  if s_dual a then moded_proximal sd_lagrange_prox (sd_bound_prox (s_groups a) (s_lasso a) (s_weights a) (m_bound (s_moded a))) (s_moded a) quadratic
  else moded_proximal (s_lagrange_prox (s_groups a) (s_lasso a) (s_weights a)) s_bound_prox (s_moded a) quadratic.
Definition sgl_objective (a : sgl) (x : vec) (chk : bool) (fuel : nat) : res ext :=
  if s_dual a then
    moded_objective (fun y lam _ => sd_seminorm (s_groups a) (s_lasso a) (s_weights a) (m_bound (s_moded a)) y lam fuel)
      (sd_constraint (s_groups a) (s_lasso a) (s_weights a) (m_bound (s_moded a))) (s_moded a) x chk
  else moded_objective (s_seminorm (s_groups a) (s_lasso a) (s_weights a)) (s_constraint (s_groups a) (s_lasso a) (s_weights a)) (s_moded a) x chk.
(** get_conjugate, 198-226, branch quadratic.coef == 0 *)
Definition sgl_conjugate (a : sgl) : option (res sgl) :=
  match moded_conjugate (s_moded a) with
  | Some r => Some (rmap (mk_sgl (negb (s_dual a)) (s_groups a) (s_lasso a) (filled (s_weights a) (s_groups a))) r)
  | None => None
  end.
(** __copy__, 119-127 *)
Definition sgl_copy (a : sgl) : res sgl :=
  new_sgl (s_dual a) (s_groups a) (s_lasso a) (s_weights a) (m_lagrange (s_moded a)) (m_bound (s_moded a)) (b_offset (m_base (s_moded a))) (Some (b_quadratic (m_base (s_moded a)))).
