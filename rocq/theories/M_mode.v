(** Model of the mode handling inherited from regreg/atoms/seminorms.py by the seminorm subclasses in
    slope.py, weighted_atoms.py, group_lasso.py, sparse_group_lasso.py and block_norms.py. *)
From Coq Require Import Reals List Bool.
From Verif Require Import Vec Spec M_quad M_prox M_semi M_shift.
Import ListNotations.
Local Open Scope R_scope.

(** lagrange / bound attributes with the common ones *)
Record moded := mk_moded { m_lagrange : option R; m_bound : option R; m_base : base }.

(** seminorm.__init__, regreg/atoms/seminorms.py:34-58 *)
Definition new_moded (n : nat) (lagrange bound : option R) (offset : option vec) (quadratic : option iq) : res moded :=
  match lagrange, bound with
  | Some _, Some _ => Err ValueError
  | None, None => Err ValueError
  | _, _ =>
      if is_neg bound then Err ValueError
      else if is_neg lagrange then Err ValueError
      else Ok (mk_moded lagrange bound (new_base n offset quadratic))
  end.

(** seminorm.proximal, regreg/atoms/seminorms.py:325-345, dispatching on the mode *)
Definition moded_proximal (lprox : vec -> R -> R -> res vec) (bprox : vec -> R -> res vec) (a : moded) (quadratic : addend) : res vec :=
  shifted_prox (m_base a) quadratic (fun x L =>
    match m_bound a with
    | Some b => bprox x b
    | None => rbind (need (m_lagrange a) None) (fun lam => lprox x L lam)
    end).

(** seminorm.nonsmooth_objective, regreg/atoms/seminorms.py:451-490 *)
Definition moded_objective (value : vec -> R -> bool -> res ext) (constraint : vec -> R -> res ext) (a : moded) (x : vec) (check_feasibility : bool) : res ext :=
  shifted_objective (m_base a) x (fun y =>
    match m_bound a with
    | Some b => if check_feasibility then constraint y b else Ok (Fin 0)
    | None => rbind (need (m_lagrange a) None) (fun lam => value y lam check_feasibility)
    end).

(** seminorm.get_conjugate and its copies in the subclasses (regreg/atoms/seminorms.py:177-202,
    regreg/atoms/slope.py:121-144, ...), branch quadratic.coef == 0: lagrange and bound swap. The class
    change is left to the caller. Where coef != 0 the result is None. *)
Definition moded_conjugate (a : moded) : option (res moded) :=
  if Req_EM_T (coef (b_quadratic (m_base a))) 0 then
    let '(o, outq) := work_out_conjugate (b_shape (m_base a)) (b_offset (m_base a)) (b_quadratic (m_base a)) in
    Some (match m_bound a with
          | None => new_moded (b_shape (m_base a)) None (m_lagrange a) o (Some outq)
          | Some b => new_moded (b_shape (m_base a)) (Some b) None o (Some outq)
          end)
  else None.
