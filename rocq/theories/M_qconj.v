(** Model of the constructors of quadratic_loss and of its conjugate, regreg/smooth/quadratic.py:50-109, 166-191, and of signal_approximator,
    regreg/smooth/quadratic.py:255-269. The evaluation of quadratic_loss, lines 131-165, is in M_loss (quad_func, quad_grad). *)
From Coq Require Import Reals List Arith Bool.
From Verif Require Import Vec Spec M_quad M_affine M_loss M_smooth M_shift SpecCone M_cones M_problem M_sconj.
Import ListNotations.
Local Open Scope R_scope.

(** The argument Q: None, a square array, a transform, or with Qdiag=True a one-dimensional array; regreg/smooth/quadratic.py:67-73 *)
Inductive qform := QNone | QArray (rows : list vec) | QMap (T : transform) | QDiag (d : vec).
(** Q_transform: affine_transform(Q, None, False) or scaler(Q), regreg/smooth/quadratic.py:67-73 *)
Definition q_transform (Q : qform) : option transform :=
  match Q with QNone => None | QArray D => Some (matrix D (length D) None) | QMap T => Some (wrap T None) | QDiag d => Some (scaler d) end.
(** The attributes, regreg/smooth/quadratic.py:50-73 *)
Record qloss := mk_qloss { ql_shape : nat; ql_Q : qform; ql_coef : R; ql_offset : option vec; ql_quadratic : iq }.
(** __init__, regreg/smooth/quadratic.py:50-73, with the check of smooth_atom.__init__, regreg/smooth/__init__.py:43-55. A transform without affine_offset
    does not pass as a transform; it has no ndim either. *)
Definition new_qloss (n : nat) (Q : qform) (c : R) (off : option vec) (q : option iq) : res qloss :=
  if Rlt_dec c 0 then Err ValueError else
  match Q with
  | QMap T => match t_off T with None => Err AttributeError | Some _ => Ok (mk_qloss n Q c (norm_offset off) (match q with Some q => q | None => no_quad end)) end
  | _ => Ok (mk_qloss n Q c (norm_offset off) (match q with Some q => q | None => no_quad end))
  end.
(** smooth_objective, regreg/smooth/quadratic.py:131-165 *)
Definition ql_map (L : qloss) : option (vec -> vec) := option_map t_lin (q_transform (ql_Q L)).
Definition ql_eval (L : qloss) (x : vec) (m : smode_arg) : res sval :=
  match m with
  | EvBoth => Ok (VBoth (quad_func (ql_map L) (ql_coef L) (ql_offset L) x) (quad_grad (ql_map L) (ql_coef L) (ql_offset L) x))
  | EvGrad => Ok (VGrad (quad_grad (ql_map L) (ql_coef L) (ql_offset L) x))
  | EvFunc => Ok (VFunc (quad_func (ql_map L) (ql_coef L) (ql_offset L) x))
  | EvOther => Err ValueError
  end.
(** fromarray, regreg/smooth/quadratic.py:74-83 *)
Definition ql_fromarray (D : list vec) (off : option vec) (q : option iq) : res qloss := new_qloss (length D) (QArray D) 1 off q.
(** squared_transform, regreg/smooth/quadratic.py:85-96 *)
Definition ql_squared (T : transform) (off : option vec) (q : option iq) : res qloss :=
  rbind (composition [adjoint T; T]) (fun Q => new_qloss (t_in Q) (QMap Q) 1 off q).
(** diagonal, regreg/smooth/quadratic.py:98-109 *)
Definition ql_diagonal (d : vec) (off : option vec) (q : option iq) : res qloss := new_qloss (length d) (QDiag d) 1 off q.
(** signal_approximator, regreg/smooth/quadratic.py:255-269, through shift, regreg/smooth/__init__.py:122-129 *)
Definition signal_approximator (signal : vec) (c : R) : res qloss := new_qloss (length signal) QNone c (Some signal) None.
(** get_conjugate, regreg/smooth/quadratic.py:166-191. With a Q: collapsed() never leaves a None, so the offset can be taken off;
    a scaler has no attribute diagD; affine_transform sets it to False. With factor, np.identity(self.shape) is handed a tuple. *)
Definition ql_conjugate (L : qloss) (factor : bool) : res sconj :=
  match ql_Q L with
  | QNone =>
      rbind (q_add (mk_iq (ql_coef L) (match ql_offset L with Some o => FVec o | None => FNone end) (FScal 0) 0) (AQuad (ql_quadratic L))) (fun t =>
      cone_sconj (new_cone KZero (ql_shape L) None (Some (collapsed t))))
  | QDiag _ => Err AttributeError
  | _ => if factor then Err TypeError else Err ValueError
  end.
