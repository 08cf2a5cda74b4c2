(** C44, C69, C28: the quasi-Newton method. *)
From Coq Require Import Reals List Lra Lia Arith Bool.
From Verif Require Import M_affine SpecAffine M_loss SpecLoss M_smooth SpecSmooth Vec Spec SpecConvex M_quad P_quad M_semi SpecAtom M_shift SpecBase SpecCone M_cones M_fista SpecFista M_problem SpecProblem P_problem2 SpecNewton M_newton SpecNewton2 P_newton P_newton2 P_newton3 P_newton4.
Import ListNotations.
Local Open Scope R_scope.

(** ** C44 *)
Theorem C44_update : forall n H x0 x1 g0 g1, positive_definite n H -> length x0 = n -> length x1 = n -> length g0 = n -> length g1 = n -> 0 < dot (vsub g1 g0) (vsub x1 x0) ->
  exists H', update_hessian H x0 x1 g0 g1 = Ok H' /\ positive_definite n H' /\ mat_vec H' (vsub x1 x0) = vsub g1 g0.
Proof. exact bfgs_update. Qed.
Print Assumptions C44_update.
(** For every direction: d'H'd = d'Hd - (s'Hd)^2 / s'Hs + (y'd)^2 / y's *)
Theorem C44_formula : forall n H x0 x1 g0 g1 H', symmetric n H -> length x0 = n -> length x1 = n -> length g0 = n -> length g1 = n -> update_hessian H x0 x1 g0 g1 = Ok H' ->
  let y := vsub g1 g0 in let s := vsub x1 x0 in forall d, length d = n -> form H' d = form H d - dot s (mat_vec H d) * dot s (mat_vec H d) / form H s + dot y d * dot y d / dot y s.
Proof. exact form_update. Qed.
Print Assumptions C44_formula.
Theorem C44_history : forall n ops H, positive_definite n H -> Forall (curved n) ops -> exists H', updates H ops = Ok H' /\ positive_definite n H'.
Proof. exact bfgs_history. Qed.
Print Assumptions C44_history.
Theorem C44_initial : forall n a A H0 q x, symmetric n H0 -> (forall d, length d = n -> 0 <= form H0 d) -> 0 < vsum (mat_diag H0) -> positive_definite n (qn_hessian (new_qnewton a A H0 q x)) /\
  forall d, length d = n -> form (qn_hessian (new_qnewton a A H0 q x)) d = form H0 d + vsum (mat_diag H0) / INR n * sqn d.
Proof. exact initial_pd. Qed.
Print Assumptions C44_initial.
Theorem C44_raises : forall H x0 x1 g0 g1, update_hessian H x0 x1 g0 g1 = Err ValueError <-> dot (vsub g1 g0) (vsub x1 x0) < - / 10 ^ 5.
Proof. exact bfgs_raises. Qed.
Print Assumptions C44_raises.
(** Between two points of a convex function it never raises. *)
Theorem C44_convex : forall n f g H x y, convex_on n f -> gradient_of n f g -> length x = n -> length y = n -> update_hessian H x y (g x) (g y) <> Err ValueError.
Proof. exact convex_never_raises. Qed.
Print Assumptions C44_convex.
(** A product that is negative but above -1e-5 is accepted, and the matrix is no longer positive definite. *)
Theorem C44_refuted : exists H', update_hessian [[1]] [0] [1] [0] [- / 10 ^ 6] = Ok H' /\ positive_definite 1 [[1]] /\ ~ positive_definite 1 H' /\ dot (vsub [- / 10 ^ 6] [0]) (vsub [1] [0]) < 0.
Proof. exact small_negative. Qed.
Print Assumptions C44_refuted.
Example C44_instance : positive_definite 1 [[1]] /\ curved 1 ([0], [1], [2], [5]).
Proof. split; [exact one_pd|]. cbn. repeat split. unfold dot, vsum; cbn. lra. Qed.

(** ** C69 *)
(** The inner solve runs the solver on the documented model G'd + d'Hd/2 + P(x+d) of the problem, plus a constant. *)
Theorem C69_inner : forall n P N loops fuel prm d g z,
  good_smooth n (qn_smooth N) -> exact_obj n P (qn_atom N) -> good_quad n (qn_quadratic N) -> symmetric n (qn_hessian N) -> (forall d, length d = n -> 0 <= form (qn_hessian N) d) ->
  length (qn_coefs N) = n -> (exists r, P (qn_coefs N) = Fin r) -> p_backtrack prm = true -> 0 < p_start_step prm -> qn_inner loops fuel prm N = Ok (d, g, z) ->
  g = s_grad (qn_smooth N) (qn_coefs N) /\ length d = n /\ z = vadd (qn_coefs N) d /\ (exists r, P z = Fin r) /\
  exists f h C s K, exact_problem n f h C /\ good_start h C (qn_coefs N) /\ fit loops fuel prm C (qn_coefs N) None false = Ok s /\ s_coefs s = z /\
    forall e, length e = n -> objective f h (vadd (qn_coefs N) e) = ext_add (Fin K) (newton_model g (qn_hessian N) (plus_quad n P (qn_quadratic N)) (qn_coefs N) e).
Proof. exact inner_spec. Qed.
Print Assumptions C69_inner.
(** Where the model has no better point, the point is a minimizer; where it has one, the direction decreases the objective. *)
Theorem C69_fixed_point_partial : forall n f g H P x, convex_on n f -> gradient_of n f g -> convex_ext n P -> symmetric n H -> (forall d, length d = n -> 0 <= form H d) -> length x = n ->
  is_argmin n (newton_model (g x) H P x) (zeros n) -> is_argmin n (objective f P) x.
Proof. exact newton_fixed. Qed.
Print Assumptions C69_fixed_point_partial.
Theorem C69_descent : forall n f g H P x px d, gradient_of n f g -> convex_ext n P -> positive_definite n H -> length x = n -> P x = Fin px ->
  is_argmin n (newton_model (g x) H P x) d -> d <> zeros n ->
  exists t0, 0 < t0 /\ forall t, 0 < t < t0 -> exists r, objective f P (vadd x (vscal t d)) = Fin r /\ r < f x + px.
Proof. exact newton_descent. Qed.
Print Assumptions C69_descent.
(** A whole run, whatever step sizes the line search picks: the parts are unchanged and the matrix stays positive definite. *)
Theorem C69_run : forall n P niter loops fuel prm search N N' x,
  good_smooth n (qn_smooth N) -> exact_obj n P (qn_atom N) -> good_quad n (qn_quadratic N) -> strictly_monotone n (s_grad (qn_smooth N)) -> positive_definite n (qn_hessian N) -> length (qn_coefs N) = n ->
  (forall x, length x = n -> exists r, P x = Fin r) -> (forall k, p_backtrack (prm k) = true /\ 0 < p_start_step (prm k)) ->
  qn_solve niter loops fuel prm search N = Ok (N', x) -> same_parts N N' /\ positive_definite n (qn_hessian N') /\ qn_coefs N' = x /\ length x = n.
Proof. exact solve_keeps_pd. Qed.
Print Assumptions C69_run.
(** The quadratic of the smooth object is left out of the inner problem: at 0 no step is left, though the objective is smaller at 1/2. *)
Theorem C69_quadratic_refuted : let N := mk_qnewton (half_sq own_sq) zero_pen no_quad [[1]] [0] in
  good_smooth 1 (qn_smooth N) /\ exact_obj 1 (fun _ => Fin 0) (qn_atom N) /\ positive_definite 1 (qn_hessian N) /\
  is_argmin 1 (newton_model (s_grad (qn_smooth N) (qn_coefs N)) (qn_hessian N) (plus_quad 1 (fun _ => Fin 0) (qn_quadratic N)) (qn_coefs N)) (zeros 1) /\
  qn_objective N (qn_coefs N) = Fin (/ 2) /\ qn_objective N [/ 2] = Fin (/ 4).
Proof. exact loses_quadratic. Qed.
Print Assumptions C69_quadratic_refuted.
(** minimize x^2/2 + |x|, started at its solution 0: the matrix becomes nan at once. *)
Theorem C69_zero_refuted : is_argmin 1 (objective (s_func (half_sq no_quad)) (fun x => Fin (1 * ell1 x))) (qn_coefs at_solution) /\ positive_definite 1 (qn_hessian at_solution) /\
  exists loops fuel, forall niter search, qn_solve (S niter) loops fuel (fun _ => plain_run) search at_solution = Err NaNResult.
Proof. exact solution_is_nan. Qed.
Print Assumptions C69_zero_refuted.
Theorem C69_null_step : forall n x, length x = n -> (x <> zeros n -> qn_converged x x = true) /\ (x = zeros n -> qn_converged x x = false) /\ forall H g, update_hessian H x x g g = Err NaNResult.
Proof. exact null_step. Qed.
Print Assumptions C69_null_step.
(** The objective reported is the loss, the penalty and both quadratics. *)
Theorem C69_objective : forall n P N x r, good_smooth n (qn_smooth N) -> exact_obj n P (qn_atom N) -> good_quad n (qn_quadratic N) -> length x = n -> P x = Fin r ->
  qn_nonsmooth N x true = Ok (simple_fun n (qn_smooth N) P (qn_quadratic N) x) /\
  qn_objective N x = objective (s_func (qn_smooth N)) (simple_fun n (qn_smooth N) P (qn_quadratic N)) x.
Proof. exact qn_objective_correct. Qed.
Print Assumptions C69_objective.
(** solve stops at the first step all of whose entries are below 1e-6 times the norm of the new point, returning the minimizer of the last model. *)
Theorem C69_converged : forall n x y, length x = n -> length y = n ->
  (qn_converged x y = true <-> y <> zeros n /\ forall i, (i < n)%nat -> Rabs (nth i x 0 - nth i y 0) < / 10 ^ 6 * norm y).
Proof. exact converged_iff. Qed.
Print Assumptions C69_converged.
Theorem C69_stops : forall n niter loops fuel prm search N d g z, length (qn_coefs N) = n -> length d = n -> qn_inner loops fuel (prm 0%nat) N = Ok (d, g, z) ->
  let new := vadd (qn_coefs N) (vscal (search 0%nat (qn_coefs N) d) d) in
  new <> zeros n -> (forall i, (i < n)%nat -> Rabs (nth i (qn_coefs N) 0 - nth i new 0) < / 10 ^ 6 * norm new) ->
  qn_solve (S niter) loops fuel prm search N = Ok (qn_move N z (qn_hessian N), z).
Proof. exact stops_at. Qed.
Print Assumptions C69_stops.
Theorem C69_goes_on : forall n niter loops fuel prm search N d g z i, length (qn_coefs N) = n -> length d = n -> qn_inner loops fuel (prm 0%nat) N = Ok (d, g, z) ->
  let new := vadd (qn_coefs N) (vscal (search 0%nat (qn_coefs N) d) d) in
  (i < n)%nat -> / 10 ^ 6 * norm new <= Rabs (nth i (qn_coefs N) 0 - nth i new 0) ->
  qn_solve (S (S niter)) loops fuel prm search N =
    rbind (update_hessian (qn_hessian N) (qn_coefs N) new g (s_grad (qn_smooth N) new)) (fun H =>
    qn_solve (S niter) loops fuel (fun k => prm (S k)) (fun k => search (S k)) (qn_move N new H)).
Proof. exact goes_on. Qed.
Print Assumptions C69_goes_on.
Example C69_instance : let N := mk_qnewton (half_sq no_quad) (of_atom (l1_one 1)) no_quad [[1]] [3] in
  good_smooth 1 (qn_smooth N) /\ exact_obj 1 (fun x => Fin (1 * ell1 x)) (qn_atom N) /\ good_quad 1 (qn_quadratic N) /\ strictly_monotone 1 (s_grad (qn_smooth N)) /\ positive_definite 1 (qn_hessian N).
Proof.
  cbv zeta. split; [apply half_good, no_quad_good|]. split; [apply l1_one_exact; lra|]. split; [apply no_quad_good|]. split; [|exact one_pd].
  intros x y Lx Ly N. cbn [qn_smooth]. rewrite !half_grad by auto. fold (sqn (vsub y x)). assert (0 <= sqn (vsub y x)) by apply sqn_nonneg. assert (sqn (vsub y x) <> 0). { intros E. apply N. symmetry. apply vsub_eq_zero; [congruence|lra]. } lra.
Qed.

(** ** C28 *)
(** A solver started at a minimizer returns it. *)
Theorem C28_stays : forall n f h C P, exact_problem n f h C -> steps_fit n P C -> forall loops fuel x st att s, is_argmin n (objective f h) x -> good_start h C x -> 0 < first_step P st ->
  fit loops fuel P C x st att = Ok s -> s_coefs s = x.
Proof. exact fit_stays. Qed.
Print Assumptions C28_stays.
