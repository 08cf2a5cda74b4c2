(** Model of regreg/atoms/block_norms.py. x.reshape(self.shape) is read as [rows r c x]; arrays have r*c entries. *)
From Coq Require Import Reals List Bool.
From Verif Require Import Vec Spec M_quad M_prox M_semi M_shift M_mode SpecPart SpecBlock.
Import ListNotations.
Local Open Scope R_scope.

(** The classes l1_l2, linf_l2, l1_l1, linf_linf, block_sum(atom_cls) and block_max(atom_cls) *)
Inductive bclass := L1L2 | LinfL2 | L1L1 | LinfLinf | BSum (c : snclass) | BMax (c : snclass).
(** [b_in_lagrange], [b_in_bound] are the attributes of self.atom *)
Record batom := mk_batom { bk : bclass; b_r : nat; b_c : nat; b_in_lagrange : option R; b_in_bound : option R; b_moded : moded }.
(** block_sum.__init__, regreg/atoms/block_norms.py:34-52 (and 247-261, 360-372, 450-462, 562-574): the inner atom accepts what the outer one does *)
Definition new_batom (k : bclass) (r c : nat) (lagrange bound : option R) (offset : option vec) (quadratic : option iq) : res batom :=
  rmap (mk_batom k r c lagrange bound) (new_moded (r * c) lagrange bound offset quadratic).

Fixpoint collect {A B} (f : A -> res B) (l : list A) : res (list B) :=
  match l with [] => Ok [] | a :: t => rbind (f a) (fun b => rmap (cons b) (collect f t)) end.
(** seminorms, 56-64: check_feasibility is not handed on, so the value is always finite *)
Definition row_value (c : snclass) (lagrange : R) (row : vec) : res R :=
  rbind (seminorm_value c row lagrange false) (fun v => match v with Fin r => Ok r | PInf => Err NaNResult end).
Definition row_norms (r c : nat) (x : vec) : vec := map norm (rows r c x).
(** seminorm, 67-74 (block_sum), 176-182 (block_max), 272-277 (linf_l2), 383-388 (linf_linf), 497-502 (l1_l2), 592-597 (l1_l1) *)
Definition bl_seminorm (k : bclass) (r c : nat) (x : vec) (lagrange : R) (chk : bool) : res ext :=
  match k with
  | L1L2 => Ok (Fin (lagrange * vsum (row_norms r c x)))
  | LinfL2 => rmap (fun m => Fin (lagrange * m)) (np_max (row_norms r c x))
  | L1L1 => Ok (Fin (lagrange * vsum (vabs x)))
  | LinfLinf => rmap (fun m => Fin (lagrange * m)) (np_max (vabs x))
  | BSum s => rmap (fun l => Fin (lagrange * vsum l)) (collect (row_value s 1) (rows r c x))
  | BMax s => rbind (collect (row_value s 1) (rows r c x)) (fun l => rmap (fun m => Fin (lagrange * m)) (np_max l))
  end.
(** constraint, 77-83, 185-192, 264-269, 375-380, 489-494, 584-589. block_sum leaves out lagrange=1, so that its rows are
    weighted by self.atom.lagrange ([inner]), which is None in bound mode. *)
Definition bl_constraint (k : bclass) (r c : nat) (inner : option R) (x : vec) (bound : R) : res ext :=
  let below v := ok_or_inf (rleb v (bound * (1 + tol))) in
  match k with
  | L1L2 => Ok (below (vsum (row_norms r c x)))
  | LinfL2 => rmap below (np_max (row_norms r c x))
  | L1L1 => Ok (below (vsum (vabs x)))
  | LinfLinf => rmap below (np_max (vabs x))
  | BSum s => rmap (fun l => below (vsum l)) (collect (fun row => rbind (need inner None) (fun lam => row_value s lam row)) (rows r c x))
  | BMax s => rbind (collect (row_value s 1) (rows r c x)) (fun l => rmap below (np_max l))
  end.
(** A row times [f norm] / norm, which is nan for a zero row *)
Definition scale_row (f : R -> R) (row : vec) : res vec :=
  match row with [] => Ok [] | _ :: _ => if Req_EM_T (norm row) 0 then Err NaNResult else Ok (vscal (f (norm row) / norm row) row) end.
Definition scale_rows (f : R -> R) (r c : nat) (x : vec) : res vec := rmap (@concat R) (collect (scale_row f) (rows r c x)).
Definition excess (cut n : R) : R := (n - cut) * (if Rlt_dec cut n then 1 else 0).
(** lagrange_prox, 86-93 (xrange is not defined in Python 3), 195-196, 290-302, 398-407, 465-470, 577-581 *)
Definition bl_lagrange_prox (k : bclass) (r c : nat) (x : vec) (lipschitz lagrange : R) : res vec :=
  match k with
  | L1L2 => scale_rows (fun n => Rmax (n - lagrange / lipschitz) 0) r c x
  | LinfL2 => rbind (find_solution_piecewise_linear_c (lagrange / lipschitz) 0 (row_norms r c x)) (fun cut => scale_rows (fun n => n - excess cut n) r c x)
  | L1L1 => Ok (map (fun a => Rmax (Rabs a - lagrange / lipschitz) 0 * sgn a) x)
  | LinfLinf => rbind (l1_project x (lagrange / lipschitz)) (fun proj => Ok (vsub x proj))
  | BSum _ => Err NameError
  | BMax _ => Err ValueError
  end.
(** v[norm >= bound] *= bound / norm[norm >= bound], 285-286 *)
Definition shrink_row (bound : R) (row : vec) : res vec :=
  if Rle_dec bound (norm row) then scale_row (fun _ => bound) row else Ok row.
(** bound_prox, 96-99, 199-207, 280-287, 391-395, 473-486, 600-607 *)
Definition bl_bound_prox (k : bclass) (r c : nat) (x : vec) (bound : R) : res vec :=
  match k with
  | L1L2 => rbind (find_solution_piecewise_linear_c bound 0 (row_norms r c x)) (fun cut => scale_rows (excess cut) r c x)
  | LinfL2 => rmap (@concat R) (collect (shrink_row bound) (rows r c x))
  | L1L1 => l1_project x bound
  | LinfLinf => Ok (clip (- bound) bound x)
  | BSum _ => Ok (map (Rmult 0) x)
  | BMax _ => Err NameError
  end.
Definition batom_proximal (a : batom) (quadratic : addend) : res vec :=
  moded_proximal (bl_lagrange_prox (bk a) (b_r a) (b_c a)) (bl_bound_prox (bk a) (b_r a) (b_c a)) (b_moded a) quadratic.
Definition batom_objective (a : batom) (x : vec) (chk : bool) : res ext :=
  moded_objective (bl_seminorm (bk a) (b_r a) (b_c a)) (bl_constraint (bk a) (b_r a) (b_c a) (b_in_lagrange a)) (b_moded a) x chk.
(** conjugate_block_pairs, 641-647 *)
Definition bpair (k : bclass) : bclass :=
  match k with L1L2 => LinfL2 | LinfL2 => L1L2 | L1L1 => LinfLinf | LinfLinf => L1L1 | BSum c => BMax (pair_class c) | BMax c => BSum (pair_class c) end.
(** get_conjugate, 118-139, 305-324, 533-551, branch quadratic.coef == 0: the mode is read off the conjugate of self.atom *)
Definition batom_conjugate (a : batom) : option (res batom) :=
  if Req_EM_T (coef (b_quadratic (m_base (b_moded a)))) 0 then
    let '(o, outq) := work_out_conjugate (b_r a * b_c a) (b_offset (m_base (b_moded a))) (b_quadratic (m_base (b_moded a))) in
    Some (new_batom (bpair (bk a)) (b_r a) (b_c a) (b_in_bound a) (b_in_lagrange a) o (Some outq))
  else None.
(** Assignment to the property lagrange, which is seminorm's (regreg/atoms/seminorms.py:220-242); self.atom is not told *)
Definition batom_set_lagrange (a : batom) (v : R) : res batom :=
  match m_bound (b_moded a) with
  | None => Ok (mk_batom (bk a) (b_r a) (b_c a) (b_in_lagrange a) (b_in_bound a) (mk_moded (Some v) None (m_base (b_moded a))))
  | Some _ => Err AttributeError
  end.
(** __copy__ is inherited from seminorm, regreg/atoms/seminorms.py:136-141; block_sum and block_max need one more argument *)
Definition batom_copy (a : batom) : res batom :=
  match bk a with
  | BSum _ | BMax _ => Err TypeError
  | k => new_batom k (b_r a) (b_c a) (m_lagrange (b_moded a)) (m_bound (b_moded a)) (b_offset (m_base (b_moded a))) (Some (b_quadratic (m_base (b_moded a))))
  end.
(** The methods set_lagrange, block_norms.py:106-107, and set_bound, 114-115: the first drops its argument, the second reads *)
Definition batom_set_lagrange_method (a : batom) (v : R) : res batom := Err TypeError.
Definition batom_set_bound_method (a : batom) (v : R) : res batom := Ok a.
