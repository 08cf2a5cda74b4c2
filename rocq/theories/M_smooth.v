(** Model of regreg/smooth/__init__.py (smooth_atom, affine_smooth, zero, sum) and of the composite base class of
    regreg/problems/composite.py: smooth objects built from losses by affine composition and weighted sums. A loss carries the case
    weights its evaluation uses (M_loss models the arrays). Arrays have the right shapes; arithmetic is real. *)
From Coq Require Import Reals List Arith Bool.
From Verif Require Import M_affine Vec Spec M_quad M_loss.
Import ListNotations.
Local Open Scope R_scope.

(** Each object carries its own identity quadratic (attribute quadratic). *)
Inductive satom :=
| SLoss (k : family) (n : nat) (c : R) (off : option vec) (cw : vec) (q : iq)
| SQuad (Q : option (vec -> vec)) (n : nat) (c : R) (off : option vec) (q : iq)
| SZero (n : nat) (q : iq)
| SGlm (k : family) (n : nat) (c : R) (off : option vec) (cw : vec) (T : transform) (goff : option vec) (q : iq)
| SAff (a : satom) (T : transform) (q : iq)
| SSum (l : list satom) (ws : vec) (q : iq).

(** sq(0,0,0,0) and sq(None,None,None,None) *)
Definition no_quad : iq := mk_iq 0 (FScal 0) (FScal 0) 0.
(** f += w * f_i over zip(weights, atoms), starting from 0 *)
Definition acc_func (ws fs : vec) : R := fold_left Rplus (vzip Rmult ws fs) 0.
Definition acc_grad (n : nat) (ws : vec) (gs : list vec) : vec := fold_left vadd (map (fun p => vscal (fst p) (snd p)) (combine ws gs)) (zeros n).

(** smooth_objective(x,'func') and (x,'grad'): affine_smooth 205-252, zero 282-294, sum 326-372 (its offset is always None);
    glm.smooth_objective regreg/smooth/glm.py:96-135 *)
Fixpoint s_func (a : satom) (x : vec) : R :=
  match a with
  | SLoss k _ c off cw _ => loss_func k c off cw x
  | SQuad Q _ c off _ => quad_func Q c off x
  | SZero _ _ => 0
  | SGlm k _ c off cw T goff _ => loss_func k c off cw (t_lin T (sub_offset goff x))
  | SAff a T _ => s_func a (t_aff T x)
  | SSum l ws _ => acc_func ws (map (fun a => s_func a x) l)
  end.
Fixpoint s_grad (a : satom) (x : vec) : vec :=
  match a with
  | SLoss k _ c off cw _ => loss_grad k c off cw x
  | SQuad Q _ c off _ => quad_grad Q c off x
  | SZero _ _ => zeros (length x)
  | SGlm k _ c off cw T goff _ => t_adj T (loss_grad k c off cw (t_lin T (sub_offset goff x)))
  | SAff a T _ => t_adj T (s_grad a (t_aff T x))
  | SSum l ws _ => acc_grad (length x) ws (map (fun a => s_grad a x) l)
  end.
(** mode dispatch; affine_smooth returns None on an unknown mode, the others raise ValueError *)
Definition s_eval (a : satom) (x : vec) (m : smode_arg) : res (option sval) :=
  match m with
  | EvFunc => Ok (Some (VFunc (s_func a x)))
  | EvGrad => Ok (Some (VGrad (s_grad a x)))
  | EvBoth => Ok (Some (VBoth (s_func a x) (s_grad a x)))
  | EvOther => match a with SAff _ _ _ => Ok None | _ => Err ValueError end
  end.
(** self.shape; sum takes the shape of its first atom *)
Fixpoint s_shape (a : satom) : nat :=
  match a with
  | SLoss _ n _ _ _ _ | SQuad _ n _ _ _ | SZero n _ => n
  | SGlm _ _ _ _ _ T _ _ | SAff _ T _ => t_in T
  | SSum l _ _ => match l with a :: _ => s_shape a | [] => 0%nat end
  end.
Definition s_quadratic (a : satom) : iq :=
  match a with SLoss _ _ _ _ _ q | SQuad _ _ _ _ q | SZero _ q | SGlm _ _ _ _ _ _ _ q | SAff _ _ q | SSum _ _ q => q end.
Definition set_quadratic (a : satom) (q : iq) : satom :=
  match a with
  | SLoss k n c off cw _ => SLoss k n c off cw q
  | SQuad Q n c off _ => SQuad Q n c off q
  | SZero n _ => SZero n q
  | SGlm k n c off cw T goff _ => SGlm k n c off cw T goff q
  | SAff a T _ => SAff a T q
  | SSum l ws _ => SSum l ws q
  end.
(** composite.nonsmooth_objective 73-74 and objective 82-83 *)
Definition s_nonsmooth (n : nat) (a : satom) (x : vec) : R := q_denot n (s_quadratic a) x.
Definition s_objective (n : nat) (a : satom) (x : vec) : R := s_func a x + s_nonsmooth n a x.

(** composite.set_offset regreg/problems/composite.py:46-52 *)
Definition norm_offset (off : option vec) : option vec := match off with Some v => if all_zero v then None else Some v | None => None end.
(** The class methods, for a loss class with keyword arguments that fix its data; [cw]: the weights in force.
    affine 83-104: the offset is negated, -None raises TypeError; coef < 0 raises ValueError (53-55) *)
Definition cls_affine (k : family) (T : transform) (b : option vec) (c : R) (q : option iq) (cw : vec) : res satom :=
  match b with
  | None => Err TypeError
  | Some b => if Rlt_dec c 0 then Err ValueError else
      Ok (SAff (SLoss k (t_out T) c (norm_offset (Some (vopp b))) cw (match q with Some q => q | None => no_quad end)) T no_quad)
  end.
(** linear 106-120: the offset is passed unchanged *)
Definition cls_linear (k : family) (T : transform) (off : option vec) (c : R) (q : option iq) (cw : vec) : res satom :=
  if Rlt_dec c 0 then Err ValueError else
  Ok (SAff (SLoss k (t_out T) c (norm_offset off) cw (match q with Some q => q | None => no_quad end)) T no_quad).
(** shift 122-129 *)
Definition cls_shift (k : family) (off : vec) (c : R) (q : option iq) (cw : vec) : res satom :=
  if Rlt_dec c 0 then Err ValueError else
  Ok (SLoss k (length off) c (norm_offset (Some off)) cw (match q with Some q => q | None => no_quad end)).
(** sum.__init__ 302-324 *)
Definition new_sum (l : list satom) (weights : option vec) : res satom :=
  let ws := match weights with Some w => w | None => const_vec (length l) 1 end in
  if negb (Nat.eqb (length ws) (length l)) then Err ValueError else
  if existsb (fun a => if Rlt_dec a 0 then true else false) ws then Err ValueError else
  match l with [] => Err IndexError | _ => Ok (SSum l ws no_quad) end.
(** squared_error(X, Y), regreg/smooth/quadratic.py:  quadratic_loss.affine(X, -Y) *)
Definition squared_error (T : transform) (Y : vec) (c : R) : res satom :=
  if Rlt_dec c 0 then Err ValueError else Ok (SAff (SQuad None (t_out T) c (norm_offset (Some (vopp (vopp Y)))) no_quad) T no_quad).
