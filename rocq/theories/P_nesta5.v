(** nesta and tfocs: whole calls, examples and counterexamples. *)
From Coq Require Import Reals List Lra Lia Arith Bool FunctionalExtensionality.
From Verif Require Import M_affine SpecAffine P_affine M_loss M_smooth SpecSmooth P_smooth Vec Spec SpecConvex M_quad P_quad P_calc P_sep P_loss M_prox M_semi SpecAtom P_semi P_conj M_shift SpecBase P_shift M_afatom SpecCone M_cones P_cones M_fista SpecFista P_fista P_fista2 M_problem SpecProblem P_problem P_separable P_problem2 M_sconj SpecSconj P_sconj P_block3 P_path2 P_admm SpecNewton M_newton P_newton P_newton2 P_newton3 M_nesta SpecNesta P_nesta P_nesta2 P_nesta3 P_nesta4 P_tfocs P_tfocs2.
Import ListNotations.
Local Open Scope R_scope.

Theorem nesta_end : forall run N n T P h G y0 xs us B, nesta_for N n T P h -> conjugates (t_out T) h G -> solves_nesta run N n (t_out T) -> saddle_point n T P G xs us -> lipschitz_fun (t_out T) h B -> 0 <= B ->
  (forall e, In e (schedule (na_epsilon N) (na_max_iters N)) -> 0 < e) -> match na_dual N with Some y => y0 = y /\ length y = t_out T | None => y0 = zeros (t_out T) end -> na_coef_stop N = true -> 0 < na_coef_tol N ->
  (INR (na_min_iters N) + 3) * exp (sqn (vsub y0 us) / (3 * (na_coef_tol N * na_coef_tol N))) < INR (length (schedule (na_epsilon N) (na_max_iters N))) + 3 ->
  exists o eps, nesta run N = Ok o /\ o_broke o = true /\ In eps (schedule (na_epsilon N) (na_max_iters N)) /\ is_argmin n (composed P h T) xs /\
    ext_le (composed P h T (o_primal o)) (ext_add (composed P h T xs) (Fin (2 * B * (B + 1) * eps * na_coef_tol N))).
Proof.
  intros run N n T P h G y0 xs us B NF HC SV SP HL HB HE Hy Cs Ht HK. set (sch := schedule (na_epsilon N) (na_max_iters N)) in *.
  assert (NE : sch <> []). { intros E. rewrite E in HK. cbn [length INR] in HK. assert (1 <= exp (sqn (vsub y0 us) / (3 * (na_coef_tol N * na_coef_tol N)))). { set (w := sqn (vsub y0 us) / (3 * (na_coef_tol N * na_coef_tol N))). assert (0 <= w) by (apply Rmult_le_pos; [apply sqn_nonneg|apply Rlt_le, Rinv_0_lt_compat; nra]). destruct (Req_dec w 0) as [->|Nz]; [rewrite exp_0; lra|]. pose proof (exp_ineq1 w Nz). lra. } pose proof (pos_INR (na_min_iters N)). nra. }
  assert (Ly : length y0 = t_out T) by (destruct (na_dual N) as [y|]; [destruct Hy as (-> & L); exact L|subst; apply zeros_length]).
  destruct (nesta_ran run N n T P h G NF HC SV y0 NE HE Hy) as (o & Eo & RN). fold sch in RN. assert (Bk := stops N n T P h G NF HC y0 sch o xs us Ly HE RN SP Cs Ht HK). exists o.
  destruct (stop_value N n T P h G NF HC y0 sch o B xs Ly HE RN HL HB Cs Bk ltac:(apply SP)) as (r & rs & Er & V). exists (r_eps r). split; [exact Eo|]. split; [exact Bk|]. split; [|split; [|exact V]].
  - destruct RN as [_ _ R3 _ _]. rewrite <- (firstn_skipn (length (o_rounds o)) sch). apply in_or_app. left. rewrite <- R3. apply in_map. rewrite Er. apply in_or_app. right. left. auto.
  - destruct (nesta_convex N n T P h G NF HC) as (CP & CG). destruct (stands_map _ _ _ (nf_source _ _ _ _ _ NF)) as (TA & _). apply (saddle_solves n T P G h TA (nf_in _ _ _ _ _ NF) xs us HC SP).
Qed.
Example nesta_end_case : exists o eps, nesta (line_run 3) (line_args 3 (repeat 1 3) 3 1 0) = Ok o /\ o_broke o = true /\ In eps (repeat 1 3) /\ is_argmin 1 (composed (line_fun 3) abs_fun (identity_map 1)) [3 - clip 3] /\
  ext_le (composed (line_fun 3) abs_fun (identity_map 1) (o_primal o)) (ext_add (composed (line_fun 3) abs_fun (identity_map 1) [3 - clip 3]) (Fin (2 * 1 * (1 + 1) * eps * 1))).
Proof.
  apply (nesta_end (line_run 3) (line_args 3 (repeat 1 3) 3 1 0) 1 (identity_map 1) (line_fun 3) abs_fun unit_box [0] [3 - clip 3] [clip 3] 1); auto.
  - apply line_for. - apply abs_conjugates. - apply line_solves. - apply line_saddle. - apply abs_lipschitz. - lra. - cbn. intros e He. repeat (destruct He as [<-|He]; [lra|]). destruct He. - reflexivity. - cbn; lra.
  - cbn [na_min_iters na_coef_tol line_args schedule na_epsilon length repeat INR]. assert (C3 : clip 3 = 1) by (destruct (clip_cases 3) as [(H1 & H2)|[(H1 & H2)|(H1 & H2)]]; lra). rewrite C3. unfold sqn, dot, vsum. cbn. replace (((0 - 1) * (0 - 1) + 0) / (3 * (1 * 1))) with (/ 3) by field.
    assert (E : exp (/ 3) < 2). { apply Rnot_le_lt. intros H. assert (exp 1 = exp (/ 3) * exp (/ 3) * exp (/ 3)) by (rewrite <- !exp_plus; f_equal; field). pose proof exp_le_3. assert (4 <= exp (/ 3) * exp (/ 3)) by nra. nra. } lra.
Qed.
(** A quadratic attached to the loss is ignored. *)
Definition with_loss (N : nesta_args) (a : satom) : nesta_args :=
  mk_nesta (Some a) (na_atom N) (na_coefs N) (na_source N) (na_epsilon N) (na_tol N) (na_max_iters N) (na_min_iters N) (na_coef_tol N) (na_primal N) (na_dual N) (na_coef_stop N) (na_quadratic N).
Lemma set_quadratic_shape : forall a q, s_shape (set_quadratic a q) = s_shape a.
Proof. destruct a; reflexivity. Qed.
Lemma drops_loop : forall run N a q epsilon idx center carried value last, nesta_loop run (with_loss N (set_quadratic a q)) idx epsilon center carried value last = nesta_loop run (with_loss N a) idx epsilon center carried value last.
Proof.
  intros run N a q. assert (Sh : nesta_shape (with_loss N (set_quadratic a q)) = nesta_shape (with_loss N a)) by apply set_quadratic_shape.
  assert (At : nesta_atom (with_loss N (set_quadratic a q)) = nesta_atom (with_loss N a)) by (unfold nesta_atom; rewrite Sh; reflexivity).
  assert (Fn : forall p x, nesta_func (with_loss N (set_quadratic a q)) p x = nesta_func (with_loss N a) p x) by (intros p x; unfold nesta_func; cbn [with_loss na_loss]; rewrite set_quadratic_func; reflexivity).
  assert (Gn : forall p x, nesta_grad (with_loss N (set_quadratic a q)) p x = nesta_grad (with_loss N a) p x) by (intros p x; unfold nesta_grad; rewrite Sh; cbn [with_loss na_loss]; rewrite set_quadratic_grad; reflexivity).
  assert (Pn : forall p, nesta_problem (with_loss N (set_quadratic a q)) p = nesta_problem (with_loss N a) p). { intros p. unfold nesta_problem. rewrite At. f_equal; apply functional_extensionality; intros x; [rewrite Fn|apply Gn]; reflexivity. }
  assert (Vn : forall p x, nesta_value (with_loss N (set_quadratic a q)) p x = nesta_value (with_loss N a) p x) by (intros p x; unfold nesta_value; rewrite Fn, At; reflexivity).
  assert (St : forall i c, nesta_start (with_loss N (set_quadratic a q)) i c = nesta_start (with_loss N a) i c) by (intros i c; unfold nesta_start; rewrite Sh; reflexivity).
  induction epsilon as [|eps rest IH]; intros idx center carried value last; [reflexivity|]. cbn [nesta_loop]. change (na_source (with_loss N (set_quadratic a q))) with (na_source (with_loss N a)). destruct (src_smoothed _ _) as [p|e]; [|reflexivity]. cbn [rbind].
  rewrite Pn, St. change (na_tol (with_loss N (set_quadratic a q))) with (na_tol (with_loss N a)). destruct (run idx _ _ _) as [an|e]; [|reflexivity]. cbn [rbind]. rewrite Vn, IH. reflexivity.
Qed.
Theorem nesta_drops : forall run N a q, na_loss N = Some a ->
  nesta run (mk_nesta (Some (set_quadratic a q)) (na_atom N) (na_coefs N) (na_source N) (na_epsilon N) (na_tol N) (na_max_iters N) (na_min_iters N) (na_coef_tol N) (na_primal N) (na_dual N) (na_coef_stop N) (na_quadratic N)) = nesta run N.
Proof.
  intros run N a q El. assert (EN : N = with_loss N a) by (destruct N; cbn in *; subst; reflexivity). transitivity (nesta run (with_loss N a)); [|congruence]. unfold nesta. cbn [na_source na_epsilon na_max_iters na_dual na_coefs with_loss]. destruct (src_dual _); [|reflexivity]. cbn [rbind]. apply (drops_loop run N a q).
Qed.
(** The momentum takes the returned dual point out of the domain, and max_iters does not bound the rounds. *)
Theorem nesta_momentum : exists run N T P h G o, nesta_for N 1 T P h /\ conjugates 1 h G /\ solves_nesta run N 1 1 /\ t_out T = 1%nat /\ (forall e, In e (schedule (na_epsilon N) (na_max_iters N)) -> 0 < e) /\ nesta run N = Ok o /\
  Forall (fun r => exists g, G (r_dual r) = Fin g) (o_rounds o) /\ G (o_dual o) = PInf /\ (na_max_iters N < length (o_rounds o))%nat.
Proof.
  destruct line_two as (o & Eo & L2 & Wa & Bf & Ed & Eb). exists (line_run (13 / 10)), (line_args (13 / 10) [1; 1] 1 0 0), (identity_map 1), (line_fun (13 / 10)), abs_fun, unit_box, o.
  split; [apply line_for|]. split; [apply abs_conjugates|]. split; [apply line_solves|]. split; [reflexivity|]. split; [cbn; intros e [<-|[<-|[]]]; lra|]. split; [exact Eo|]. split; [|split; [exact Eb|rewrite L2; cbn; lia]].
  destruct (nesta_ran (line_run (13 / 10)) (line_args (13 / 10) [1; 1] 1 0 0) 1 (identity_map 1) _ _ unit_box (line_for _ _ _ _ _) abs_conjugates (line_solves _ _ _ _ _) [0]) as (o' & Eo' & RN); [discriminate|cbn; intros e [<-|[<-|[]]]; lra|reflexivity|]. rewrite Eo in Eo'. apply Ok_inj in Eo'. subst o'. destruct RN as [R1 _ _ _ _]. eapply Forall_impl; [|exact R1]. intros r ER. apply (round_parts 1 (identity_map 1) (line_fun (13 / 10)) unit_box r ER).
Qed.
