(** C91, C92: the smoothing loops nesta and tfocs. *)
From Coq Require Import Reals List Lra Lia Arith Bool.
From Verif Require Import M_affine SpecAffine M_smooth SpecSmooth Vec Spec SpecConvex M_quad M_prox M_semi SpecAtom M_shift SpecBase M_afatom SpecCone M_cones M_fista SpecFista M_problem SpecProblem M_sconj SpecSconj
  M_nesta SpecNesta P_nesta P_nesta2 P_nesta3 P_nesta4 P_nesta5 P_tfocs P_tfocs2 P_tfocs3 P_nesta6 P_nesta7.
Import ListNotations.
Local Open Scope R_scope.

(** ** C91. nesta minimizes P(x) + h(Tx) by a sequence of smoothed problems. *)
(** The problem of one round: its objective is P(x) + f(Tx), f the conjugate of G + eps/2 |. - y|^2, differentiable with Lipschitz constant 1/eps; the object smoothed from conjugate_atom evaluates the maximizer. *)
Theorem C91_problem : forall N n T P h G eps y, nesta_for N n T P h -> conjugates (t_out T) h G -> 0 < eps -> length y = t_out T ->
  exists p f g fs hs, src_smoothed (na_source N) (mk_iq eps (FVec y) (FScal 0) 0) = Ok p /\ smooth_conjugate_of (t_out T) (plus_quad (t_out T) G (mk_iq eps (FVec y) (FScal 0) 0)) (1 / eps) f g /\ (forall x, length x = n -> sm_inner p x = g (t_lin T x)) /\
    exact_problem n fs hs (nesta_problem N p) /\ forall x, length x = n -> objective fs hs x = ext_add (P x) (Fin (f (t_lin T x))).
Proof. exact nesta_exact. Qed.
Print Assumptions C91_problem.
(** With a solver that minimizes these problems the call returns; its rounds, result and warning are those of the record ran. *)
Theorem C91_rounds : forall run N n T P h G, nesta_for N n T P h -> conjugates (t_out T) h G -> solves_nesta run N n (t_out T) -> forall y0, schedule (na_epsilon N) (na_max_iters N) <> [] -> (forall e, In e (schedule (na_epsilon N) (na_max_iters N)) -> 0 < e) ->
  match na_dual N with Some y => y0 = y /\ length y = t_out T | None => y0 = zeros (t_out T) end -> exists o, nesta run N = Ok o /\ ran N n T P G 0 y0 (schedule (na_epsilon N) (na_max_iters N)) o.
Proof. exact nesta_ran. Qed.
Print Assumptions C91_rounds.
(** The primal point of a round, with h taken at a point within eps |dual - center| of T primal, is optimal up to eps |dual - center| |dual|. *)
Theorem C91_round_value : forall n T P G h r, true_adjoint T -> t_in T = n -> convex_ext n P -> convex_ext (t_out T) G -> conjugates (t_out T) h G -> exact_round n T P G r -> 0 < r_eps r -> length (r_center r) = t_out T ->
  forall z, length z = n -> exists v, length v = t_out T /\ vsub (t_lin T (r_primal r)) v = vscal (r_eps r) (vsub (r_dual r) (r_center r)) /\
    ext_le (ext_add (P (r_primal r)) (h v)) (ext_add (composed P h T z) (Fin (r_eps r * norm (vsub (r_dual r) (r_center r)) * norm (r_dual r)))).
Proof. intros; apply (round_value n T P G h); auto. Qed.
Print Assumptions C91_round_value.
(** A round that does not move its center has solved the problem and its dual. *)
Theorem C91_fixed : forall n T P G h r, true_adjoint T -> t_in T = n -> convex_ext n P -> convex_ext (t_out T) G -> conjugates (t_out T) h G -> exact_round n T P G r -> 0 < r_eps r -> length (r_center r) = t_out T ->
  r_dual r = r_center r -> is_argmin n (composed P h T) (r_primal r) /\ saddle_point n T P G (r_primal r) (r_dual r).
Proof. intros; apply (round_fixed n T P G h); auto. Qed.
Print Assumptions C91_fixed.
(** Such a pair minimizes P(x) + h(Tx). *)
Theorem C91_saddle : forall n T P G h xs us, true_adjoint T -> t_in T = n -> conjugates (t_out T) h G -> saddle_point n T P G xs us -> is_argmin n (composed P h T) xs.
Proof. intros n T P G h xs us A I; apply saddle_solves; auto. Qed.
Print Assumptions C91_saddle.
(** No round moves away from any dual solution: neither the centers nor the dual points are farther from it than the starting point. *)
Theorem C91_closer : forall N n T P h G, nesta_for N n T P h -> conjugates (t_out T) h G -> forall y epsilon o, length y = t_out T -> (forall e, In e epsilon -> 0 < e) -> ran N n T P G 0 y epsilon o ->
  forall xs us, saddle_point n T P G xs us ->
  norm (vsub (o_dual o) us) <= norm (vsub y us) /\ Forall (fun r => norm (vsub (r_center r) us) <= norm (vsub y us) /\ norm (vsub (r_dual r) us) <= norm (vsub (r_center r) us)) (o_rounds o).
Proof. intros N n T P h G NF HC y epsilon o Ly HE RN xs us SP; exact (closer N n T P h G NF HC y epsilon o xs us Ly HE RN SP). Qed.
Print Assumptions C91_closer.
(** With enough entries in epsilon the test of coef_stop ends the loop. *)
Theorem C91_stops : forall N n T P h G, nesta_for N n T P h -> conjugates (t_out T) h G -> forall y epsilon o, length y = t_out T -> (forall e, In e epsilon -> 0 < e) -> ran N n T P G 0 y epsilon o ->
  forall xs us, saddle_point n T P G xs us -> na_coef_stop N = true -> 0 < na_coef_tol N ->
  (INR (na_min_iters N) + 3) * exp (sqn (vsub y us) / (3 * (na_coef_tol N * na_coef_tol N))) < INR (length epsilon) + 3 -> o_broke o = true.
Proof. intros N n T P h G NF HC y epsilon o Ly HE RN xs us SP; exact (stops N n T P h G NF HC y epsilon o xs us Ly HE RN SP). Qed.
Print Assumptions C91_stops.
(** When it does, and h is Lipschitz, the primal point returned is optimal up to 2B(B+1) eps coef_tol. *)
Theorem C91_stop_value : forall N n T P h G, nesta_for N n T P h -> conjugates (t_out T) h G -> forall y epsilon o, length y = t_out T -> (forall e, In e epsilon -> 0 < e) -> ran N n T P G 0 y epsilon o ->
  forall B z, lipschitz_fun (t_out T) h B -> 0 <= B -> na_coef_stop N = true -> o_broke o = true -> length z = n ->
  exists r rs, o_rounds o = rs ++ [r] /\ ext_le (composed P h T (o_primal o)) (ext_add (composed P h T z) (Fin (2 * B * (B + 1) * r_eps r * na_coef_tol N))).
Proof. intros N n T P h G NF HC y epsilon o Ly HE RN B z HL HB; exact (stop_value N n T P h G NF HC y epsilon o B z Ly HE RN HL HB). Qed.
Print Assumptions C91_stop_value.
(** The whole call. Partial: h Lipschitz, exact inner solver, a dual solution exists, the list epsilon is long enough. *)
Theorem C91_end_partial : forall run N n T P h G y0 xs us B, nesta_for N n T P h -> conjugates (t_out T) h G -> solves_nesta run N n (t_out T) -> saddle_point n T P G xs us -> lipschitz_fun (t_out T) h B -> 0 <= B ->
  (forall e, In e (schedule (na_epsilon N) (na_max_iters N)) -> 0 < e) -> match na_dual N with Some y => y0 = y /\ length y = t_out T | None => y0 = zeros (t_out T) end -> na_coef_stop N = true -> 0 < na_coef_tol N ->
  (INR (na_min_iters N) + 3) * exp (sqn (vsub y0 us) / (3 * (na_coef_tol N * na_coef_tol N))) < INR (length (schedule (na_epsilon N) (na_max_iters N))) + 3 ->
  exists o eps, nesta run N = Ok o /\ o_broke o = true /\ In eps (schedule (na_epsilon N) (na_max_iters N)) /\ is_argmin n (composed P h T) xs /\
    ext_le (composed P h T (o_primal o)) (ext_add (composed P h T xs) (Fin (2 * B * (B + 1) * eps * na_coef_tol N))).
Proof. exact nesta_end. Qed.
Print Assumptions C91_end_partial.
(** (x - c)^2 / 2 - c^2 / 2 + |x| on the line, its solution and dual solution, and a solver for its rounds; a whole call *)
Example C91_case : forall c eps mx ct mi, nesta_for (line_args c eps mx ct mi) 1 (identity_map 1) (line_fun c) abs_fun /\ conjugates 1 abs_fun unit_box /\ solves_nesta (line_run c) (line_args c eps mx ct mi) 1 1 /\
  saddle_point 1 (identity_map 1) (line_fun c) unit_box [c - clip c] [clip c] /\ lipschitz_fun 1 abs_fun 1.
Proof. intros. split; [apply line_for|]. split; [apply abs_conjugates|]. split; [apply line_solves|]. split; [apply line_saddle|apply abs_lipschitz]. Qed.
Example C91_whole_case : exists o eps, nesta (line_run 3) (line_args 3 (repeat 1 3) 3 1 0) = Ok o /\ o_broke o = true /\ In eps (repeat 1 3) /\ is_argmin 1 (composed (line_fun 3) abs_fun (identity_map 1)) [3 - clip 3] /\
  ext_le (composed (line_fun 3) abs_fun (identity_map 1) (o_primal o)) (ext_add (composed (line_fun 3) abs_fun (identity_map 1) [3 - clip 3]) (Fin (2 * 1 * (1 + 1) * eps * 1))).
Proof. exact nesta_end_case. Qed.
(** Without coef_stop the loop ends at the first round, from number min_iters and from the second on, whose optimal value is within coef_tol (|value| + 1) of the one before. *)
Theorem C91_values : forall run N n T P h G, nesta_for N n T P h -> conjugates (t_out T) h G -> solves_nesta run N n (t_out T) -> na_coef_stop N = false -> (forall e, In e (schedule (na_epsilon N) (na_max_iters N)) -> 0 < e) -> (forall y, na_dual N = Some y -> length y = t_out T) -> forall o, nesta run N = Ok o ->
  (forall a r0 r b, o_rounds o = a ++ r0 :: r :: b -> (steady N n T P G r0 r <-> b = [] /\ o_broke o = true)) /\ (o_broke o = true -> (2 <= length (o_rounds o))%nat).
Proof. exact nesta_values. Qed.
Print Assumptions C91_values.
(** With one eps the optimal values of the smoothed problems rise, by at least 3 eps / (2 (k + 3)) times the square of the distance moved, and the distances fall, ... *)
Theorem C91_rises : forall N n T P h G eps, nesta_for N n T P h -> conjugates (t_out T) h G -> 0 < eps -> forall first y rs a r0 r b w0 w, linked first y rs -> Forall (exact_round n T P G) rs -> Forall (fun r => r_eps r = eps) rs -> length y = t_out T -> rs = a ++ r0 :: r :: b -> worth n T P G r0 w0 -> worth n T P G r w ->
  w0 + 3 * eps / (2 * (INR (r_idx r0) + 3)) * sqn (vsub (r_dual r0) (r_center r0)) <= w /\ norm (vsub (r_dual r) (r_center r)) <= norm (vsub (r_dual r0) (r_center r0)).
Proof. exact pair_gain. Qed.
Print Assumptions C91_rises.
(** ... and they lie below the optimum by at most eps/2 times the squared distance of the center from any dual solution. *)
Theorem C91_range : forall n T P G h, true_adjoint T -> t_in T = n -> convex_ext n P -> convex_ext (t_out T) G -> forall r w xs us v, conjugates (t_out T) h G -> exact_round n T P G r -> 0 < r_eps r -> length (r_center r) = t_out T -> worth n T P G r w -> saddle_point n T P G xs us -> composed P h T xs = Fin v ->
  v - r_eps r / 2 * sqn (vsub us (r_center r)) <= w <= v.
Proof. exact worth_range. Qed.
Print Assumptions C91_range.
(** The whole call with the default test and one eps: it stops, and the value at the coefficients returned is within an explicit bound of the optimum. Partial: h Lipschitz, exact inner solver, a dual solution exists, enough rounds. *)
Theorem C91_value_end_partial : forall run N n T P h G y0 xs us v B eps, nesta_for N n T P h -> conjugates (t_out T) h G -> solves_nesta run N n (t_out T) -> saddle_point n T P G xs us -> composed P h T xs = Fin v -> lipschitz_fun (t_out T) h B -> 0 <= B ->
  0 < eps -> (forall e, In e (schedule (na_epsilon N) (na_max_iters N)) -> e = eps) -> match na_dual N with Some y => y0 = y /\ length y = t_out T | None => y0 = zeros (t_out T) end -> na_coef_stop N = false -> 0 < na_coef_tol N ->
  eps / 2 * sqn (vsub us y0) < na_coef_tol N * (INR (length (schedule (na_epsilon N) (na_max_iters N))) - 1 - INR (na_min_iters N)) ->
  exists o k w c, nesta run N = Ok o /\ o_broke o = true /\ length (o_rounds o) = (k + 2)%nat /\ v - eps / 2 * sqn (vsub us y0) <= w <= v /\
    composed P h T (o_primal o) = Fin c /\ v <= c <= v + 2 * B * sqrt (2 * eps * (INR k + 3) / 3 * (na_coef_tol N * (Rabs w + 1))).
Proof. exact nesta_value_end. Qed.
Print Assumptions C91_value_end_partial.
Example C91_value_case : exists o k w c, nesta (line_run 3) (by_values (line_args 3 (repeat 1 3) 3 1 0)) = Ok o /\ o_broke o = true /\ length (o_rounds o) = (k + 2)%nat /\ - 2 - 1 / 2 * sqn (vsub [clip 3] [0]) <= w <= - 2 /\
  composed (line_fun 3) abs_fun (identity_map 1) (o_primal o) = Fin c /\ - 2 <= c <= - 2 + 2 * 1 * sqrt (2 * 1 * (INR k + 3) / 3 * (1 * (Rabs w + 1))).
Proof. exact nesta_value_case. Qed.
(** A quadratic attached to the loss is ignored: the result is the same whatever it is. *)
Theorem C91_quadratic_refuted : forall run N a q, na_loss N = Some a ->
  nesta run (mk_nesta (Some (set_quadratic a q)) (na_atom N) (na_coefs N) (na_source N) (na_epsilon N) (na_tol N) (na_max_iters N) (na_min_iters N) (na_coef_tol N) (na_primal N) (na_dual N) (na_coef_stop N) (na_quadratic N)) = nesta run N.
Proof. exact nesta_drops. Qed.
Print Assumptions C91_quadratic_refuted.
(** Without a break the dual point returned is the extrapolated center: here the conjugate is infinite at it although it is finite at every dual point computed; and the loop runs through epsilon however small max_iters is. *)
Theorem C91_momentum_refuted : exists run N T P h G o, nesta_for N 1 T P h /\ conjugates 1 h G /\ solves_nesta run N 1 1 /\ t_out T = 1%nat /\ (forall e, In e (schedule (na_epsilon N) (na_max_iters N)) -> 0 < e) /\ nesta run N = Ok o /\
  Forall (fun r => exists g, G (r_dual r) = Fin g) (o_rounds o) /\ G (o_dual o) = PInf /\ (na_max_iters N < length (o_rounds o))%nat.
Proof. exact nesta_momentum. Qed.
Print Assumptions C91_momentum_refuted.
(** The schedule of the theorems above: a given list is used as it is, whatever max_iters says; without one, max_iters rounds with epsilon 1. *)
Theorem C91_schedule : forall l k, schedule (Some l) k = l /\ length (schedule None k) = k /\ (forall e, In e (schedule None k) -> e = 1).
Proof.
  intros l k. split; [reflexivity|]. split; [apply repeat_length|]. intros e H. exact (repeat_spec _ _ _ H).
Qed.
Print Assumptions C91_schedule.

(** An empty schedule (max_iters = 0): NameError *)
Theorem C91_empty_refuted : forall run N m, src_dual (na_source N) = Ok m -> schedule (na_epsilon N) (na_max_iters N) = [] -> nesta run N = Err NameError.
Proof. exact nesta_empty. Qed.
Print Assumptions C91_empty_refuted.

(** ** C92. tfocs minimizes P(v) + h(Tv + a) through the duals of its proximal steps. *)
(** With a solver that minimizes the dual problems the call returns; its rounds, result and warning are those of the record tran. *)
Theorem C92_rounds : forall run F n P h G, tfocs_for F n P h G -> solves_tfocs run F n -> schedule (tf_epsilon F) (tf_max_iters F) <> [] -> (forall e, In e (schedule (tf_epsilon F) (tf_max_iters F)) -> 0 < e) ->
  exists o, tfocs run F = Ok o /\ tran F n P G 0 (zeros n) (schedule (tf_epsilon F) (tf_max_iters F)) o.
Proof. exact tfocs_ran. Qed.
Print Assumptions C92_rounds.
(** A round is the proximal step of the problem with parameter 1/eps from its center. *)
Theorem C92_prox : forall run F n P h G, tfocs_for F n P h G -> solves_tfocs run F n -> let T := tf_map F in forall r, exact_tround n T P G r -> 0 < r_eps r -> length (r_center r) = n ->
  exists c, composed_affine P h T (r_dual r) = Fin c /\ forall z, length z = n ->
    ext_le (Fin (c + r_eps r / 2 * (sqn (vsub (r_dual r) (r_center r)) + sqn (vsub z (r_dual r))))) (ext_add (composed_affine P h T z) (Fin (r_eps r / 2 * sqn (vsub z (r_center r))))).
Proof. intros run F n P h G TF SV T. exact (proj2 (proj2 (proj2 (tf_round run F n P h G TF SV)))). Qed.
Print Assumptions C92_prox.
(** Its point is optimal up to eps |z - point| |point - center| against every z. *)
Theorem C92_value : forall run F n P h G, tfocs_for F n P h G -> solves_tfocs run F n -> let T := tf_map F in forall r, exact_tround n T P G r -> 0 < r_eps r -> length (r_center r) = n ->
  forall z, length z = n -> ext_le (composed_affine P h T (r_dual r)) (ext_add (composed_affine P h T z) (Fin (r_eps r * norm (vsub z (r_dual r)) * norm (vsub (r_dual r) (r_center r))))).
Proof. intros run F n P h G TF SV T r X E L z Lz. exact (proj1 (proj2 (tf_round run F n P h G TF SV)) r z X E L Lz). Qed.
Print Assumptions C92_value.
(** A round that does not move has found a minimizer. *)
Theorem C92_fixed : forall run F n P h G, tfocs_for F n P h G -> solves_tfocs run F n -> let T := tf_map F in forall r, exact_tround n T P G r -> 0 < r_eps r -> length (r_center r) = n ->
  r_dual r = r_center r -> is_argmin n (composed_affine P h T) (r_center r).
Proof. intros run F n P h G TF SV T. exact (proj1 (proj2 (proj2 (tf_round run F n P h G TF SV)))). Qed.
Print Assumptions C92_fixed.
(** Neither the centers, nor the points, nor the result are farther from any minimizer than the start. *)
Theorem C92_closer : forall run F n P h G, tfocs_for F n P h G -> solves_tfocs run F n -> let T := tf_map F in forall x epsilon o s, length x = n -> (forall e, In e epsilon -> 0 < e) -> tran F n P G 0 x epsilon o -> is_argmin n (composed_affine P h T) s ->
  norm (vsub (o_primal o) s) <= norm (vsub x s) /\ Forall (fun r => norm (vsub (r_center r) s) <= norm (vsub x s) /\ norm (vsub (r_dual r) s) <= norm (vsub (r_center r) s)) (o_rounds o).
Proof. exact tcloser. Qed.
Print Assumptions C92_closer.
(** With enough entries in epsilon the stopping test ends the loop. *)
Theorem C92_stops : forall run F n P h G, tfocs_for F n P h G -> solves_tfocs run F n -> let T := tf_map F in forall x epsilon o s, length x = n -> (forall e, In e epsilon -> 0 < e) -> tran F n P G 0 x epsilon o -> is_argmin n (composed_affine P h T) s ->
  0 < tf_coef_tol F -> 3 * exp (sqn (vsub x s) / (3 * (tf_coef_tol F * tf_coef_tol F))) < INR (length epsilon) + 3 -> o_broke o = true.
Proof. exact tstops. Qed.
Print Assumptions C92_stops.
(** Then the result is within coef_tol max(|v|,1) of a point v that is optimal up to eps |start - minimizer| coef_tol max(|v|,1). Partial: the result itself, the center, may be infeasible. *)
Theorem C92_stop_value_partial : forall run F n P h G, tfocs_for F n P h G -> solves_tfocs run F n -> let T := tf_map F in forall x epsilon o s, length x = n -> (forall e, In e epsilon -> 0 < e) -> tran F n P G 0 x epsilon o -> is_argmin n (composed_affine P h T) s ->
  o_broke o = true -> exists r rs, o_rounds o = rs ++ [r] /\ norm (vsub (o_primal o) (r_dual r)) < tf_coef_tol F * Rmax (norm (r_dual r)) 1 /\
    ext_le (composed_affine P h T (r_dual r)) (ext_add (composed_affine P h T s) (Fin (r_eps r * norm (vsub x s) * (tf_coef_tol F * Rmax (norm (r_dual r)) 1)))).
Proof. exact tstop_value. Qed.
Print Assumptions C92_stop_value_partial.
(** v^2/2 - cv over [-1, 1], through a dual problem whose solution is 0 *)
Example C92_case : forall c eps mx ct, tfocs_for (box_args c eps mx ct) 1 (box_fun c) nothing_fun at_zero /\ solves_tfocs zero_run (box_args c eps mx ct) 1 /\ is_argmin 1 (composed_affine (box_fun c) nothing_fun (tf_map (box_args c eps mx ct))) [clip c].
Proof. intros. split; [apply box_for|]. split; [apply box_solves|apply box_min]. Qed.
(** The primal point returned without a break is the extrapolated center: here infeasible, although the last round computed a feasible point; and more rounds than max_iters are run. *)
Theorem C92_momentum_refuted : exists run F P h G o, tfocs_for F 1 P h G /\ solves_tfocs run F 1 /\ (forall e, In e (schedule (tf_epsilon F) (tf_max_iters F)) -> 0 < e) /\ tfocs run F = Ok o /\
  (exists rs r c, o_rounds o = rs ++ [r] /\ composed_affine P h (tf_map F) (r_dual r) = Fin c) /\ composed_affine P h (tf_map F) (o_primal o) = PInf /\ (tf_max_iters F < length (o_rounds o))%nat.
Proof. exact tfocs_momentum. Qed.
Print Assumptions C92_momentum_refuted.
(** An empty schedule: NameError *)
Theorem C92_empty_refuted : forall run F c dsq, prim_conjugate (tf_primal F) = Ok c -> tfocs_quadratic (tf_map F) = Ok dsq -> schedule (tf_epsilon F) (tf_max_iters F) = [] -> tfocs run F = Err NameError.
Proof. exact tfocs_empty. Qed.
Print Assumptions C92_empty_refuted.
(** A transform without affine_offset (scaler, reshape, add_intercept): AttributeError *)
Theorem C92_offset_refuted : forall run F c, prim_conjugate (tf_primal F) = Ok c -> t_off (tf_map F) = None -> tfocs run F = Err AttributeError.
Proof. exact tfocs_offsetless. Qed.
Print Assumptions C92_offset_refuted.
