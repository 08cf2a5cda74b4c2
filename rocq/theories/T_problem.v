(** C39, C40, C42, C67: problems built from parts, and solve(quadratic). *)
From Coq Require Import Reals List Lra Lia Arith Bool.
From Verif Require Import M_affine SpecAffine P_affine M_loss SpecLoss M_smooth SpecSmooth Vec Spec SpecConvex M_quad P_quad M_semi SpecAtom M_shift SpecBase SpecCone M_cones M_fista SpecFista M_problem SpecProblem P_problem P_separable P_problem2.
Import ListNotations.
Local Open Scope R_scope.

(** ** What counts as a nonsmooth part: the atoms of C04-C10 and the cones of C13-C15 qualify. *)
Theorem C39_atoms : forall n a m, (1 <= n)%nat -> atom_wf n a -> mode_ok m -> atom_mode a m -> value_ok (klass a) m -> 0 <= coef (a_quadratic a) -> exact_obj n (atom_doc n a m) (of_atom a).
Proof. exact atom_exact. Qed.
Print Assumptions C39_atoms.
Theorem C39_cones : forall n c, cone_dim (c_class c) n -> c_class c <> KL2 -> c_class c <> KL2Polar -> base_wf n (c_base c) -> 0 <= coef (b_quadratic (c_base c)) ->
  exact_obj n (base_doc n (cone_fun (c_class c)) (c_base c)) (of_cone c).
Proof. exact cone_exact. Qed.
Print Assumptions C39_cones.

(** ** C39 *)
(** simple_problem: the value is loss + penalty + quadratic of the loss + quadratic of the problem, and the solver sees that problem:
    its gradient is the loss's and its proximal step minimizes all the other terms. *)
Theorem C39_simple_value : forall n H P x chk, good_smooth n (p_smooth P) -> exact_obj n H (p_atom P) -> good_quad n (p_quadratic P) -> length x = n ->
  (exists r, simple_fun n (p_smooth P) H (p_quadratic P) x = Fin r) -> simple_value P x chk = objective (s_func (p_smooth P)) (simple_fun n (p_smooth P) H (p_quadratic P)) x.
Proof. exact simple_value_spec. Qed.
Print Assumptions C39_simple_value.
Theorem C39_simple_solver : forall n H P, good_smooth n (p_smooth P) -> exact_obj n H (p_atom P) -> good_quad n (p_quadratic P) ->
  exact_problem n (s_func (p_smooth P)) (simple_fun n (p_smooth P) H (p_quadratic P)) (simple_composite P).
Proof. exact simple_exact. Qed.
Print Assumptions C39_simple_solver.
Theorem C39_smooth_solver : forall n a l, good_smooth n a -> exact_problem n (s_func a) (own_quad n (s_quadratic a)) (smooth_composite a l).
Proof. exact smooth_exact. Qed.
Print Assumptions C39_smooth_solver.
(** Sums and affine compositions of any depth: nothing is lost when the parts have no quadratic of their own ... *)
Theorem C39_smooth_partial : forall n a x, wf a n -> length x = n -> everywhere exact_case a x -> quiet_parts a -> s_objective n a x = full_objective a x.
Proof. exact full_kept. Qed.
Print Assumptions C39_smooth_partial.
(** ... and their quadratics are lost otherwise, also the one given to the class method affine. *)
Theorem C39_affine_refuted : exists a, cls_affine (Gaussian [0]) (matrix [[1]] 1 None) (Some [0]) 1 (Some two_sq) [1] = Ok a /\ s_objective 1 a [1] = / 2 /\ full_objective a [1] = 3 / 2.
Proof. exact affine_loses. Qed.
Print Assumptions C39_affine_refuted.
Theorem C39_sum_refuted : exists a, new_sum [SZero 1 two_sq] None = Ok a /\ s_objective 1 a [1] = 0 /\ full_objective a [1] = 1.
Proof. exact sum_loses. Qed.
Print Assumptions C39_sum_refuted.
(** A lasso problem meets the hypotheses. *)
Definition lasso_design : transform := matrix [[1; 2]; [0; 1]; [3; -1]] 2 None.
Definition lasso_loss : satom := SAff (SLoss (Gaussian [1; 1; 0]) 3 1 None [1; 1; 2] no_quad) lasso_design (mk_iq 1 (FVec [1; 0]) FNone 0).
Definition lasso_atom : atom := mk_atom CL1 2 (Some 3) None None no_quad.
Definition lasso_problem : sproblem := new_simple lasso_loss (of_atom lasso_atom) [0; 0].
Lemma lasso_design_good : good_design lasso_design 2 3.
Proof. assert (B : built lasso_design) by (apply b_matrix; [repeat constructor|discriminate]). split; [apply built_good; auto|]. split; [apply (built_good _ B)|split; reflexivity]. Qed.
Lemma lasso_good : good_smooth 2 lasso_loss.
Proof.
  split; [cbn; split; [exact lasso_design_good|unfold fits_loss; cbn; auto]|]. split; [cbn; repeat split; auto; try (repeat constructor; lra); lra|]. split; [split; [split; cbn; auto|split; [exact I|cbn; lra]]|].
  intros x Lx. split; cbn; apply Forall_forall; intros; cbn; auto.
Qed.
Lemma lasso_atom_exact : exact_obj 2 (atom_doc 2 lasso_atom (Lagrange 3)) (of_atom lasso_atom).
Proof. apply C39_atoms; cbn; auto; try lra; [|split; auto|split; discriminate]. split; auto. split; [intros o E; discriminate|split; exact I]. Qed.
Example C39_instance : exact_problem 2 (s_func lasso_loss) (simple_fun 2 lasso_loss (atom_doc 2 lasso_atom (Lagrange 3)) no_quad) (simple_composite lasso_problem) /\ quiet_parts lasso_loss.
Proof.
  split; [apply (C39_simple_solver 2 _ lasso_problem); [exact lasso_good|exact lasso_atom_exact|apply no_quad_good]|]. split; [|exact I]. intros x. unfold q_denot, quad_fun. cbn [s_quadratic no_quad coef center linear_term constant_term fbcast]. rewrite const_vec_0, dot_zeros_l. lra.
Qed.

(** ** C40 *)
Theorem C40_nonsmooth : forall n H A q, exact_obj n H A -> q_shape n q -> 0 < coef q -> has_vec q ->
  exists v x, nonsmooth_solve A (Some q) = Ok (v, x) /\ is_argmin n (plus_quad n H q) x /\ v = plus_quad n H q x.
Proof. exact nonsmooth_solve_spec. Qed.
Print Assumptions C40_nonsmooth.
(** simple_problem.solve(q): afterwards only the coefficients have changed; the reported value is the objective with q at the returned point,
    which is the result of the solver on exactly that problem. *)
Theorem C40_simple : forall n H P q loops fuel prm P' v x,
  good_smooth n (p_smooth P) -> exact_obj n H (p_atom P) -> good_quad n (p_quadratic P) -> good_quad n q ->
  length (p_coefs P) = n -> (exists r, H (p_coefs P) = Fin r) -> p_backtrack prm = true -> 0 < p_start_step prm ->
  simple_solve loops fuel prm P (Some q) = (P', Ok (v, x)) ->
  let h := plus_quad n (simple_fun n (p_smooth P) H (p_quadratic P)) q in
  P' = with_coefs P x /\ length x = n /\ (exists r, v = Fin r) /\ v = objective (s_func (p_smooth P)) h x /\
  exists newq s, q_add (p_quadratic P) (AQuad q) = Ok newq /\ let C := simple_composite (with_quadratic P newq) in
    exact_problem n (s_func (p_smooth P)) h C /\ good_start h C (p_coefs P) /\ fit loops fuel prm C (p_coefs P) None false = Ok s /\ s_coefs s = x.
Proof. exact simple_solve_spec. Qed.
Print Assumptions C40_simple.
(** It returns, when the gradient is Lipschitz; [loops] and [fuel] bound the passes of the two loops of the model. *)
Theorem C40_simple_returns : forall n H P q, good_smooth n (p_smooth P) -> exact_obj n H (p_atom P) -> good_quad n (p_quadratic P) -> good_quad n q -> length (p_coefs P) = n -> (exists r, H (p_coefs P) = Fin r) ->
  forall prm L, p_backtrack prm = true -> 0 < p_start_step prm -> 0 < L -> lipschitz_map n (s_grad (p_smooth P)) L ->
  exists fuel0, forall loops fuel, (max_of prm <= loops)%nat -> (fuel0 <= fuel)%nat -> exists P' v x, simple_solve loops fuel prm P (Some q) = (P', Ok (v, x)).
Proof. exact simple_solve_ends. Qed.
Print Assumptions C40_simple_returns.
(** The reported value is never below the minimum Fz of objective + q, and within 2|x0 - z|^2 / (step (k+1)^2) of it after k iterations. *)
Theorem C40_simple_accuracy_partial : forall n H P q, good_smooth n (p_smooth P) -> exact_obj n H (p_atom P) -> good_quad n (p_quadratic P) -> good_quad n q -> length (p_coefs P) = n -> (exists r, H (p_coefs P) = Fin r) ->
  let F := objective (s_func (p_smooth P)) (plus_quad n (simple_fun n (p_smooth P) H (p_quadratic P)) q) in
  forall loops fuel prm P' v x z Fz, p_backtrack prm = true -> 0 < p_start_step prm -> p_monotonicity prm = false -> p_restart prm = None -> (max_of prm <= 99)%nat ->
  length z = n -> F z = Fin Fz -> (forall y, length y = n -> ext_le (Fin Fz) (F y)) ->
  simple_solve loops fuel prm P (Some q) = (P', Ok (v, x)) -> exists C s, fit loops fuel prm C (p_coefs P) None false = Ok s /\ s_coefs s = x /\ exists r, v = Fin r /\ Fz <= r /\
  (s_it s <> 0%nat -> r - Fz <= 2 * sqn (vsub (p_coefs P) z) / (s_step s * ((INR (s_it s) + 1) * (INR (s_it s) + 1)))).
Proof. exact simple_solve_rate. Qed.
Print Assumptions C40_simple_accuracy_partial.
(** smooth.solve(q) solves the right problem and restores the quadratic, but the value it reports is that of the objective without q. *)
Theorem C40_smooth_partial : forall n a q l loops fuel prm x0 a' x1 v x,
  good_smooth n a -> good_quad n q -> length x0 = n -> steps_fit n prm (smooth_composite a l) -> 0 < p_start_step prm ->
  smooth_solve loops fuel prm l a x0 (Some q) = (a', x1, Ok (v, x)) ->
  let h := plus_quad n (own_quad n (s_quadratic a)) q in
  a' = a /\ x1 = x /\ length x = n /\ v = s_func a x + q_denot n (s_quadratic a) x /\
  exists newq s, q_add (s_quadratic a) (AQuad q) = Ok newq /\ let C := smooth_composite (set_quadratic a newq) l in
    exact_problem n (s_func a) h C /\ good_start h C x0 /\ fit loops fuel prm C x0 None false = Ok s /\ s_coefs s = x.
Proof. exact smooth_solve_spec. Qed.
Print Assumptions C40_smooth_partial.
Theorem C40_smooth_refuted : exists loops fuel x v, smooth_solve loops fuel plain_run 0 (SZero 1 no_quad) [1] (Some lifted) = (SZero 1 no_quad, x, Ok (v, x)) /\ length x = 1%nat /\ v = 0 /\ 1 <= s_func (SZero 1 no_quad) x + q_denot 1 lifted x.
Proof. exact smooth_optimum_wrong. Qed.
Print Assumptions C40_smooth_refuted.
(** When the solver raises (here: start_step=0), the problem keeps q: evaluated at 1 its quadratic has become 3/2. *)
Theorem C40_raise_refuted : exists newq, smooth_solve 50 50 bad_step 0 (SZero 1 no_quad) [1] (Some lifted) = (SZero 1 newq, [1], Err ZeroDivisionError) /\ q_denot 1 newq [1] = 3 / 2 /\
  simple_solve 50 50 bad_step (simple_of_smooth (SZero 1 no_quad) 1) (Some lifted) = (with_quadratic (simple_of_smooth (SZero 1 no_quad) 1) newq, Err ZeroDivisionError) /\ q_denot 1 (p_quadratic (simple_of_smooth (SZero 1 no_quad) 1)) [1] = 0.
Proof. exact raise_keeps_quadratic. Qed.
Print Assumptions C40_raise_refuted.
Example C40_instance : good_smooth 2 (p_smooth lasso_problem) /\ exact_obj 2 (atom_doc 2 lasso_atom (Lagrange 3)) (p_atom lasso_problem) /\ good_quad 2 (p_quadratic lasso_problem) /\ good_quad 2 (mk_iq 2 (FVec [1; 1]) (FVec [0; 3]) 5) /\
  (exists r, atom_doc 2 lasso_atom (Lagrange 3) (p_coefs lasso_problem) = Fin r).
Proof. split; [exact lasso_good|]. split; [exact lasso_atom_exact|]. split; [apply no_quad_good|]. split; [split; [split; reflexivity|split; [exact I|cbn; lra]]|]. cbn. eauto. Qed.

(** ** C42 *)
(** Disjoint groups: the object stands for the sum over groups; in particular its proximal map minimizes that sum plus the quadratic. *)
Theorem C42_separable : forall n parts Hs, (1 <= n)%nat -> parts_exact parts Hs -> legal_groups n (map snd parts) -> exact_obj n (separable_fun Hs (map snd parts)) (of_separable (mk_separable n parts)).
Proof. exact separable_exact. Qed.
Print Assumptions C42_separable.
(** has_overlap finds exactly the pairs of groups that share an index and differ as sets. *)
Theorem C42_overlap_partial : forall n gs b, has_overlap n gs = Ok b ->
  (b = true <-> exists i j, (j < i < length gs)%nat /\ share_index (nth i gs []) (nth j gs []) /\ ~ (forall k, In k (nth i gs []) <-> In k (nth j gs []))).
Proof. exact overlap_spec. Qed.
Print Assumptions C42_overlap_partial.
Theorem C42_overlap_raises : forall n gs, has_overlap n gs = Err IndexError <-> exists g i, In g gs /\ In i g /\ (n <= i)%nat.
Proof. exact overlap_raises. Qed.
Print Assumptions C42_overlap_raises.
Theorem C42_accepts : forall n atoms gs S, new_separable n atoms gs true = Ok S ->
  sp_shape S = n /\ sp_parts S = combine atoms gs /\ (forall g i, In g gs -> In i g -> (i < n)%nat) /\
  forall i j, (j < i < length gs)%nat -> share_index (nth i gs []) (nth j gs []) -> forall k, In k (nth i gs []) <-> In k (nth j gs []).
Proof. exact separable_accepts. Qed.
Print Assumptions C42_accepts.
Theorem C42_overlap_refuted : has_overlap 1 [[0%nat]; [0%nat]] = Ok false /\ share_index [0%nat] [0%nat].
Proof. split; [reflexivity|exists 0%nat; cbn; auto]. Qed.
Print Assumptions C42_overlap_refuted.
(** Two equal groups are accepted, and the proximal map then forgets the first of the two penalties. *)
Theorem C42_separable_refuted : exists S v, new_separable 1 [of_atom (l1_one 1); of_atom (l1_one 1)] [[0%nat]; [0%nat]] true = Ok S /\ o_prox (of_separable S) at4 = Ok v /\
  ~ is_argmin 1 (plus_quad 1 (separable_fun [(fun x => Fin (1 * ell1 x)); (fun x => Fin (1 * ell1 x))] [[0%nat]; [0%nat]]) at4) v.
Proof. exact separable_wrong. Qed.
Print Assumptions C42_separable_refuted.
Example C42_instance : exists S, new_separable 4 [of_atom lasso_atom; of_atom (l1_one 2)] [[3%nat; 0%nat]; [2%nat]] true = Ok S /\ sp_shape S = 4%nat /\ parts_exact (sp_parts S) [atom_doc 2 lasso_atom (Lagrange 3); (fun x => Fin (2 * ell1 x))] /\ legal_groups 4 (map snd (sp_parts S)).
Proof.
  eexists. split; [reflexivity|]. split; [reflexivity|]. split; [constructor; [exact lasso_atom_exact|constructor; [apply l1_one_exact; lra|constructor]]|]. split; cbn.
  - repeat constructor; cbn; intuition discriminate.
  - intros g i Hg Hi. intuition (subst; cbn in *; intuition lia).
Qed.

(** ** C67 *)
(** gengrad minimizes the whole problem plus the linearized loss, which counts the loss twice: the points it does not move are the minimizers of 2f + h ... *)
Theorem C67_fixed_point_partial : forall n P h L x, let f := s_func (p_smooth P) in convex_on n f -> gradient_of n f (s_grad (p_smooth P)) -> convex_ext n h -> 0 < L -> length x = n ->
  is_argmin n (fun z => ext_add (objective f h z) (Fin (q_denot n (gengrad_quadratic P L x) z))) x <-> is_argmin n (twice f h) x.
Proof. exact gengrad_iff. Qed.
Print Assumptions C67_fixed_point_partial.
(** ... and need not minimize f + h: minimize (x-1)^2/2 + |x|/2, started at 3/4. *)
Theorem C67_refuted : let P := new_simple sq_loss (of_atom (l1_one (/ 2))) [3 / 4] in let F := objective (s_func sq_loss) (simple_fun 1 sq_loss (fun x => Fin (/ 2 * ell1 x)) no_quad) in
  exact_obj 1 (fun x => Fin (/ 2 * ell1 x)) (p_atom P) /\
  is_argmin 1 (fun z => ext_add (F z) (Fin (q_denot 1 (gengrad_quadratic P 1 (p_coefs P)) z))) (p_coefs P) /\ ~ is_argmin 1 F (p_coefs P) /\ is_argmin 1 F [/ 2].
Proof. exact gengrad_wrong. Qed.
Print Assumptions C67_refuted.
