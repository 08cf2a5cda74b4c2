(** C43: the alternating direction method of multipliers. *)
From Coq Require Import Reals List Lra Lia Arith Bool.
From Verif Require Import M_affine SpecAffine M_loss SpecLoss M_smooth SpecSmooth Vec Spec SpecConvex M_quad M_semi SpecAtom M_shift SpecBase SpecCone M_cones M_fista SpecFista M_problem SpecProblem P_problem2 M_admm SpecAdmm P_admm P_admm2 P_admm3.
Import ListNotations.
Local Open Scope R_scope.

(** The atom update minimizes the augmented Lagrangian, for every transform, and leaves the rest alone. *)
Theorem C43_atom_update : forall n loss atom T rho h, exact_obj n h atom -> good_design T n n -> 0 < rho -> forall A, state_of loss atom T rho A ->
  exists z, update_atom A = Ok (mk_admm (a_aug A) (a_atom A) (a_map A) (a_rho A) (a_x A) (a_y A) z) /\ forall f, is_argmin n (fun w => lagrangian f h T rho (a_x A) w (a_y A)) z.
Proof. exact atom_update. Qed.
Print Assumptions C43_atom_update.
(** One iteration: the loss update hands augmented loss + linear term to the solver; then the exact atom update, then the dual update. *)
Theorem C43_iteration : forall n loss atom T rho h, good_smooth n loss -> exact_obj n h atom -> good_design T n n -> reports_offset T -> 0 < rho ->
  forall loops fuel prm lip A A', state_of loss atom T rho A -> p_backtrack prm = true -> 0 < p_start_step prm -> admm_iter loops fuel prm lip A = Ok A' ->
  state_of loss atom T rho A' /\ (forall f, is_argmin n (fun w => lagrangian f h T rho (a_x A') w (a_y A)) (a_z A')) /\ a_y A' = vadd (a_y A) (vscal rho (vsub (t_aff T (a_x A')) (a_z A'))) /\
  exists lin hh C s, admm_linear A = Ok lin /\ length lin = n /\ exact_problem n (s_func (a_aug A)) hh C /\ good_start hh C (a_x A) /\ fit loops fuel prm C (a_x A) None false = Ok s /\ s_coefs s = a_x A' /\
    forall u, length u = n -> objective (s_func (a_aug A)) hh u = Fin (s_func (a_aug A) u + dot lin u).
Proof. exact iter_spec. Qed.
Print Assumptions C43_iteration.
(** What is handed to the solver is the augmented Lagrangian, up to a constant, when linear_map is symmetric. *)
Theorem C43_loss_update_partial : forall n loss atom T rho, good_design T n n -> reports_offset T -> self_adjoint T -> forall A, state_of loss atom T rho A -> exists lin K, length lin = n /\ admm_linear A = Ok lin /\
  forall u, length u = n -> lagrangian (s_func loss) (fun _ => Fin 0) T rho u (a_z A) (a_y A) = Fin (s_func (a_aug A) u + dot lin u + K).
Proof. exact handed. Qed.
Print Assumptions C43_loss_update_partial.
Theorem C43_round_partial : forall n loss atom T rho h, good_smooth n loss -> exact_obj n h atom -> good_design T n n -> reports_offset T -> 0 < rho -> self_adjoint T ->
  forall loops fuel prm lip A A', state_of loss atom T rho A -> p_backtrack prm = true -> 0 < p_start_step prm -> admm_iter loops fuel prm lip A = Ok A' -> solved n A (a_x A') ->
  admm_round n n (s_func loss) h T rho (point A) (point A').
Proof. exact iter_round. Qed.
Print Assumptions C43_round_partial.
(** A round that changes nothing has found a minimizer (any transform). *)
Theorem C43_fixed_point : forall n m f h T rho, convex_on n f -> convex_ext m h -> good_design T n m -> 0 < rho -> forall x z y, length z = m -> length y = m ->
  admm_round n m f h T rho (x, z, y) (x, z, y) -> is_argmin n (split_objective f h T) x.
Proof. exact round_fixed. Qed.
Print Assumptions C43_fixed_point.
Theorem C43_saddle : forall n m f h T, good_design T n m -> forall s, saddle n m f h T s -> is_argmin n (split_objective f h T) (fst (fst s)).
Proof. exact saddle_minimizes. Qed.
Print Assumptions C43_saddle.
(** The code stays at a solution ... *)
Theorem C43_stays_partial : forall n loss atom T rho h, good_smooth n loss -> exact_obj n h atom -> good_design T n n -> reports_offset T -> 0 < rho -> self_adjoint T ->
  forall loops fuel prm lip A A', state_of loss atom T rho A -> p_backtrack prm = true -> 0 < p_start_step prm -> saddle n n (s_func loss) h T (point A) ->
  admm_iter loops fuel prm lip A = Ok A' -> point A' = point A.
Proof. exact iter_stays. Qed.
Print Assumptions C43_stays_partial.
(** ... and every run with exact inner solves comes closer to every solution; all squared residuals together are bounded. *)
Theorem C43_converges_partial : forall n loss atom T rho h, good_smooth n loss -> exact_obj n h atom -> good_design T n n -> reports_offset T -> self_adjoint T -> 0 < rho ->
  forall niter loops fuel prm lip (tr : nat -> admm) sol, state_of loss atom T rho (tr 0%nat) -> p_backtrack prm = true -> 0 < p_start_step prm -> saddle n n (s_func loss) h T sol ->
  (forall k, (k < S niter)%nat -> admm_iter loops fuel prm lip (tr k) = Ok (tr (S k)) /\ solved n (tr k) (a_x (tr (S k)))) ->
  distance rho sol (point (tr (S niter))) <= distance rho sol (point (tr 0%nat)) /\
  rho * sum_over niter (fun k => sqn (vsub (t_aff T (a_x (tr (S (S k))))) (a_z (tr (S (S k)))))) <= distance rho sol (point (tr 0%nat)).
Proof. exact solve_converges. Qed.
Print Assumptions C43_converges_partial.
Theorem C43_solve : forall niter loops fuel prm lip A A', admm_solve niter loops fuel prm lip A = Ok A' <->
  exists tr : nat -> admm, tr 0%nat = A /\ tr niter = A' /\ forall k, (k < niter)%nat -> admm_iter loops fuel prm lip (tr k) = Ok (tr (S k)).
Proof. exact solve_is_run. Qed.
Print Assumptions C43_solve.
(** D = [[0,1],[0,0]]: the code stays for ever at a point that is not a minimizer. *)
Theorem C43_refuted : good_smooth 2 far_loss /\ exact_obj 2 (fun x => Fin (ell1 x)) (of_atom l1_two) /\ good_design nilpotent 2 2 /\ reports_offset nilpotent /\ state_of far_loss (of_atom l1_two) nilpotent 1 stuck /\
  (exists loops fuel, forall niter, admm_solve niter loops fuel plain_run 0 stuck = Ok stuck) /\
  split_objective (s_func far_loss) (fun x => Fin (ell1 x)) nilpotent (a_x stuck) = Fin 4 /\ split_objective (s_func far_loss) (fun x => Fin (ell1 x)) nilpotent [0; 3] = Fin (7 / 2).
Proof. exact admm_wrong. Qed.
Print Assumptions C43_refuted.
(** No problem with a transform that is not square can be built. *)
Theorem C43_shape_refuted : forall loss atom T rho coefs, s_shape loss = t_in T -> t_in T <> t_out T -> new_admm loss atom T rho coefs = Err AssertionError.
Proof. exact admm_square. Qed.
Print Assumptions C43_shape_refuted.
(** The quadratic of the loss takes no part in the updates. *)
Theorem C43_quadratic_refuted : forall loss atom T rho coefs q A A', new_admm loss atom T rho coefs = Ok A -> new_admm (set_quadratic loss q) atom T rho coefs = Ok A' ->
  (forall u, s_func (a_aug A') u = s_func (a_aug A) u) /\ s_quadratic (a_aug A') = no_quad.
Proof. exact admm_drops_quadratic. Qed.
Print Assumptions C43_quadratic_refuted.
Example C43_instance : let T := identity 1 in let A := mk_admm (aug_of line_loss T 1) (of_atom (l1_one 1)) T 1 [0] [0] [0] in
  good_smooth 1 line_loss /\ exact_obj 1 (fun x => Fin (1 * ell1 x)) (of_atom (l1_one 1)) /\ good_design T 1 1 /\ reports_offset T /\ self_adjoint T /\ state_of line_loss (of_atom (l1_one 1)) T 1 A /\ saddle 1 1 (s_func line_loss) (fun x => Fin (1 * ell1 x)) T (point A).
Proof. exact line_case. Qed.
