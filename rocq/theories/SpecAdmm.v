(** The alternating direction method of multipliers for minimize f(x) + h(Dx + alpha), with z standing for Dx + alpha. *)
From Coq Require Import Reals List.
From Verif Require Import M_affine SpecAffine M_smooth SpecSmooth Vec Spec SpecConvex M_problem SpecFista M_admm.
Import ListNotations.
Local Open Scope R_scope.

(** f(x) + h(z) + y'(Dx + alpha - z) + rho/2 |Dx + alpha - z|^2 *)
Definition lagrangian (f : vec -> R) (h : vec -> ext) (T : transform) (rho : R) (x z y : vec) : ext :=
  ext_add (h z) (Fin (f x + dot y (vsub (t_aff T x) z) + rho / 2 * sqn (vsub (t_aff T x) z))).
(** The function to be minimized *)
Definition split_objective (f : vec -> R) (h : vec -> ext) (T : transform) (x : vec) : ext := ext_add (Fin (f x)) (h (t_aff T x)).
(** One round of exact updates: x, then z, then y. The term h(z) does not depend on x; it may be infinite at the first z. *)
Definition admm_round (n m : nat) (f : vec -> R) (h : vec -> ext) (T : transform) (rho : R) (a b : vec * vec * vec) : Prop :=
  let '(x, z, y) := a in let '(x', z', y') := b in
  is_argmin n (fun u => lagrangian f (fun _ => Fin 0) T rho u z y) x' /\ is_argmin m (fun w => lagrangian f h T rho x' w y) z' /\ y' = vadd y (vscal rho (vsub (t_aff T x') z')).
(** (x, z, y) solves the problem: z = Dx + alpha, x minimizes f + y'Dx, z minimizes h - y'z. *)
Definition saddle (n m : nat) (f : vec -> R) (h : vec -> ext) (T : transform) (s : vec * vec * vec) : Prop :=
  let '(x, z, y) := s in
  z = t_aff T x /\ length y = m /\ is_argmin n (fun u => Fin (f u + dot y (t_lin T u))) x /\ is_argmin m (fun w => ext_add (h w) (Fin (- dot y w))) z.
(** rho |z - z*|^2 + |y - y*|^2 / rho *)
Definition distance (rho : R) (s a : vec * vec * vec) : R :=
  let '(_, zs, ys) := s in let '(_, z, y) := a in rho * sqn (vsub z zs) + sqn (vsub y ys) / rho.
(** linear_map is symmetric *)
Definition self_adjoint (T : transform) : Prop := t_in T = t_out T /\ forall u v, length u = t_in T -> length v = t_in T -> dot (t_lin T u) v = dot u (t_lin T v).
(** A is a state of the problem loss + atom o T with parameter rho. *)
Definition state_of (loss : satom) (atom : nobj) (T : transform) (rho : R) (A : admm) : Prop :=
  (exists coefs A0, new_admm loss atom T rho coefs = Ok A0 /\ a_aug A = a_aug A0 /\ a_atom A = atom /\ a_map A = T /\ a_rho A = rho) /\
  length (a_x A) = t_in T /\ length (a_y A) = t_out T /\ length (a_z A) = t_out T.
Definition point (A : admm) : vec * vec * vec := (a_x A, a_z A, a_y A).
(** x minimizes the problem update_loss_coefs hands to the solver. *)
Definition solved (n : nat) (A : admm) (x : vec) : Prop := forall lin, admm_linear A = Ok lin -> is_argmin n (fun u => Fin (s_func (a_aug A) u + dot lin u)) x.
