(** Model of regreg/atoms/sparse_group_block.py *)
From Coq Require Import Reals List Bool.
From Verif Require Import Vec Spec M_quad M_prox M_semi M_shift M_mode SpecPart SpecBlock M_sgl M_block.
Import ListNotations.
Local Open Scope R_scope.

(** A sparse_group_block (dual = false) or sparse_group_block_dual (true), 36-55 and 157-176: the weights are not checked *)
Record sgb := mk_sgb { sb_dual : bool; sb_r : nat; sb_c : nat; sb_l1 : R; sb_l2 : R; sb_in_lagrange : option R; sb_in_bound : option R; sb_moded : moded }.
Definition new_sgb (dual : bool) (r c : nat) (l1 l2 : R) (lagrange bound : option R) (offset : option vec) (quadratic : option iq) : res sgb :=
  rmap (mk_sgb dual r c l1 l2 lagrange bound) (new_moded (r * c) lagrange bound offset quadratic).
(** _lagrange_prox, 256-260 *)
Definition sgb_row (l1 l2 : R) (row : vec) : vec :=
  let soft := map (fun a => sgn a * Rmax (Rabs a - l1) 0) row in
  vscal (Rmax (norm soft - l2) 0 / (norm soft + (if Req_EM_T (norm soft) 0 then 1 else 0))) soft.
Definition sgb_prox (r c : nat) (x : vec) (l1 l2 : R) : vec := concat (map (sgb_row l1 l2) (rows r c x)).
(** lagrange_prox 58-63, bound_prox 66-67; the dual's 179-180 and 183-189 *)
Definition sgb_lagrange_prox (a : sgb) (x : vec) (lipschitz lagrange : R) : res vec :=
  if sb_dual a then Err NotImplementedError
  else Ok (sgb_prox (sb_r a) (sb_c a) x (lagrange * sb_l1 a / lipschitz) (lagrange * sb_l2 a / lipschitz)).
Definition sgb_bound_prox (a : sgb) (x : vec) (bound : R) : res vec :=
  if sb_dual a then Ok (vsub x (sgb_prox (sb_r a) (sb_c a) x (bound * sb_l1 a) (bound * sb_l2 a)))
  else Err NotImplementedError.
(** _inside_set, 264-271 *)
Definition sgb_inside (r c : nat) (l1 l2 : R) (point : vec) (bound : R) : bool :=
  if Rlt_dec (Rmax (norm point) 1 * / 10 ^ 10) (norm (sgb_prox r c point (bound * l1) (bound * l2))) then false else true.
(** _gauge_function_dual, 273-352 *)
Definition sgb_gauge (r c : nat) (l1 l2 : R) (point : vec) (fuel : nat) : res ext :=
  search (fun t => Ok (sgb_inside r c l1 l2 point t)) (/ 10 ^ 6) 50 fuel.
(** seminorm 80-87, the dual's 201-207 *)
Definition sgb_seminorm (a : sgb) (fuel : nat) (x : vec) (lagrange : R) (chk : bool) : res ext :=
  if sb_dual a then rmap (fun v => match v with Fin g => Fin (lagrange * g) | PInf => PInf end) (sgb_gauge (sb_r a) (sb_c a) (sb_l1 a) (sb_l2 a) x fuel)
  else Ok (Fin (lagrange * (sb_l1 a * vsum (vabs x) + sb_l2 a * vsum (row_norms (sb_r a) (sb_c a) x)))).
(** constraint 70-77: np.sqrt(s, 1) takes 1 for the output array; the dual's 191-198 *)
Definition sgb_constraint (a : sgb) (fuel : nat) (x : vec) (bound : R) : res ext :=
  if sb_dual a then rmap (fun v => match v with Fin g => ok_or_inf (rleb g (bound * (1 + tol))) | PInf => PInf end) (sgb_gauge (sb_r a) (sb_c a) (sb_l1 a) (sb_l2 a) x fuel)
  else Err TypeError.
Definition sgb_proximal (a : sgb) (quadratic : addend) : res vec := moded_proximal (sgb_lagrange_prox a) (sgb_bound_prox a) (sb_moded a) quadratic.
Definition sgb_objective (a : sgb) (fuel : nat) (x : vec) (chk : bool) : res ext := moded_objective (sgb_seminorm a fuel) (sgb_constraint a fuel) (sb_moded a) x chk.
(** terms, 123-144; the dual's 233-252 *)
Definition sgb_terms (a : sgb) (x : vec) : vec :=
  map (fun row => vsum (vabs row) * sb_l1 a + norm row * sb_l1 a) (rows (sb_r a) (sb_c a) x).
Definition sgb_dual_terms (a : sgb) (fuel : nat) (x : vec) : list (res ext) :=
  map (fun row => rmap fst (gauge_function_dual_strong row (repeat (sb_l1 a) (sb_c a)) (sb_l2 a) fuel)) (rows (sb_r a) (sb_c a) x).
(** get_conjugate, 90-110 and 210-230 *)
Definition sgb_conjugate (a : sgb) : option (res sgb) :=
  if Req_EM_T (coef (b_quadratic (m_base (sb_moded a)))) 0 then
    let '(o, outq) := work_out_conjugate (sb_r a * sb_c a) (b_offset (m_base (sb_moded a))) (b_quadratic (m_base (sb_moded a))) in
    Some (new_sgb (negb (sb_dual a)) (sb_r a) (sb_c a) (sb_l1 a) (sb_l2 a) (sb_in_bound a) (sb_in_lagrange a) o (Some outq))
  else None.
(** __copy__, 113-121 *)
Definition sgb_copy (a : sgb) : res sgb :=
  new_sgb (sb_dual a) (sb_r a) (sb_c a) (sb_l1 a) (sb_l2 a) (m_lagrange (sb_moded a)) (m_bound (sb_moded a)) (b_offset (m_base (sb_moded a))) (Some (b_quadratic (m_base (sb_moded a)))).
