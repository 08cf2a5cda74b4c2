(** Model of regreg/problems/admm.py. Arrays are values: loss_coefs, the coefs of the loss and the coefs of the augmented loss hold the
    same numbers (they are one array, or copied into each other at the end of each update). *)
From Coq Require Import Reals List Arith Bool.
From Verif Require Import M_affine M_loss M_smooth Vec Spec M_quad M_semi M_shift SpecCone M_cones M_fista M_problem.
Import ListNotations.
Local Open Scope R_scope.

(** The attributes; [a_aug] is augmented_loss. The argument quadratic is stored and never used. *)
Record admm := mk_admm { a_aug : satom; a_atom : nobj; a_map : transform; a_rho : R; a_x : vec; a_y : vec; a_z : vec }.
(** quadratic_loss.squared_transform, regreg/smooth/quadratic.py:85-96, then coef *= rho *)
Definition squared_transform (D : transform) (rho : R) : res satom :=
  rbind (composition [adjoint D; D]) (fun Q => Ok (SQuad (Some (t_lin Q)) (t_in Q) (1 * rho) None no_quad)).
(** admm_problem.__init__ 30-59; [coefs] is loss.coefs *)
Definition new_admm (loss : satom) (atom : nobj) (T : transform) (rho : R) (coefs : vec) : res admm :=
  rbind (squared_transform (aslinear T) rho) (fun qloss =>
  rbind (new_sum [loss; qloss] None) (fun aug =>
  if Nat.eqb (s_shape loss) (t_out T) then Ok (mk_admm aug atom T rho coefs (zeros (t_out T)) (zeros (t_out T))) else Err AssertionError)).
(** update_loss_coefs 61-73: linear_transform.dot is linear_map (affine/__init__.py:157-176). [lip]: the lipschitz attribute of the augmented loss;
    loops, fuel, prm: fit_args *)
Definition admm_linear (A : admm) : res vec :=
  match t_off (a_map A) with
  | None => Err AttributeError
  | Some alpha => Ok (t_lin (aslinear (a_map A)) (vsub (a_y A) (vscal (a_rho A) (match alpha with None => a_z A | Some a => vsub (a_z A) a end))))
  end.
Definition update_loss (loops fuel : nat) (prm : params) (lip : R) (A : admm) : res admm :=
  rbind (admm_linear A) (fun lin =>
  rbind (snd (smooth_solve loops fuel prm lip (a_aug A) (a_x A) (Some (mk_iq 0 (FScal 0) (FVec lin) 0)))) (fun vx =>
  Ok (mk_admm (a_aug A) (a_atom A) (a_map A) (a_rho A) (snd vx) (a_y A) (a_z A)))).
(** update_atom_coefs 75-83 *)
Definition update_atom (A : admm) : res admm :=
  rbind (o_prox (a_atom A) (mk_iq (a_rho A) (FVec (t_aff (a_map A) (a_x A))) (FVec (vopp (a_y A))) 0)) (fun z =>
  Ok (mk_admm (a_aug A) (a_atom A) (a_map A) (a_rho A) (a_x A) (a_y A) z)).
(** update_dual_coefs 85-90 *)
Definition update_dual (A : admm) : admm :=
  mk_admm (a_aug A) (a_atom A) (a_map A) (a_rho A) (a_x A) (vadd (a_y A) (vscal (a_rho A) (vsub (t_aff (a_map A) (a_x A)) (a_z A)))) (a_z A).
(** solve 92-96 *)
Definition admm_iter (loops fuel : nat) (prm : params) (lip : R) (A : admm) : res admm :=
  rbind (update_loss loops fuel prm lip A) (fun A1 => rbind (update_atom A1) (fun A2 => Ok (update_dual A2))).
Fixpoint admm_solve (niter loops fuel : nat) (prm : params) (lip : R) (A : admm) : res admm :=
  match niter with O => Ok A | S k => rbind (admm_iter loops fuel prm lip A) (admm_solve k loops fuel prm lip) end.
