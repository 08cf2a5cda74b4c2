(** Where the quasi-Newton method goes wrong. *)
From Coq Require Import Reals List Lra Lia Arith Bool.
From Verif Require Import M_affine SpecAffine P_affine P_affine2 M_loss SpecLoss M_smooth SpecSmooth P_smooth Vec Spec SpecConvex M_quad P_quad P_calc M_semi SpecAtom M_shift SpecBase SpecCone M_cones M_fista SpecFista P_fista P_fista2 M_problem SpecProblem P_problem P_separable P_problem2 SpecNewton M_newton P_newton P_newton2.
Import ListNotations.
Local Open Scope R_scope.

Lemma one_pd : positive_definite 1 [[1]].
Proof.
  split; [split; [split; [reflexivity|repeat constructor]|]|].
  - intros i j Hi Hj. assert (i = 0%nat) by lia. assert (j = 0%nat) by lia. subst. reflexivity.
  - intros d L N. destruct d as [|a [|b d]]; try discriminate. unfold form, dot, vsum. cbn. assert (a <> 0). { intros ->. apply N. reflexivity. } assert (0 < a * a) by nra. nra.
Qed.
Theorem small_negative : exists H', update_hessian [[1]] [0] [1] [0] [- / 10 ^ 6] = Ok H' /\ positive_definite 1 [[1]] /\ ~ positive_definite 1 H' /\ dot (vsub [- / 10 ^ 6] [0]) (vsub [1] [0]) < 0.
Proof.
  assert (E6 : 0 < / 10 ^ 6) by (apply Rinv_0_lt_compat, pow_lt; lra). assert (E56 : / 10 ^ 6 < / 10 ^ 5) by (apply Rinv_lt_contravar; lra).
  set (e := / 10 ^ 6) in *. assert (D : dot (vsub [- e] [0]) (vsub [1] [0]) = - e). { unfold dot, vsum; cbn. lra. }
  assert (E : exists H', update_hessian [[1]] [0] [1] [0] [- e] = Ok H').
  { unfold update_hessian. cbv zeta. rewrite D. destruct (Rlt_dec _ _); [exfalso; lra|]. destruct (Req_EM_T (- e) 0); [exfalso; lra|]. destruct (Req_EM_T _ 0) as [K|_]; [|eauto]. exfalso. unfold dot, vsum in K. cbn in K. unfold dot, vsum in K. cbn in K. lra. }
  destruct E as (H' & E). exists H'. split; auto. split; [apply one_pd|]. split; [|rewrite D; lra]. intros PD.
  assert (F := form_update 1 [[1]] [0] [1] [0] [- e] H' (proj1 one_pd) eq_refl eq_refl eq_refl eq_refl E [1] eq_refl). cbv zeta in F.
  assert (0 < form H' [1]) by (apply PD; auto; intros K; injection K; lra). rewrite F in H. rewrite D in H. unfold form, dot, vsum in H. cbn in H. unfold dot, vsum in H. cbn in H.
  replace ((- e - 0) * 1 + 0) with (- e) in H by lra. replace (- e * - e / - e) with (- e) in H by (field; lra). replace ((1 - 0) * ((1 - 0) * (1 - 0)) + 0) with 1 in H by lra.
  match type of H with 0 < ?a - ?b * ?b / ?c + _ => assert (a = 1) by lra; assert (b = 1) by lra; assert (c = 1) by lra end. nra.
Qed.

(** f(x) = x^2/2, and a quadratic (x-1)^2/2 attached to it *)
Definition own_sq : iq := mk_iq 1 (FVec [1]) (FScal 0) 0.
Definition half_sq (q : iq) : satom := SQuad None 1 1 None q.
Lemma half_good : forall q, good_quad 1 q -> good_smooth 1 (half_sq q).
Proof. intros q G. split; [cbn; auto|]. split; [cbn; split; [lra|intros; apply sqn_nonneg]|]. split; auto. intros; split; exact I. Qed.
Lemma half_func : forall q a, s_func (half_sq q) [a] = a * a / 2.
Proof. intros. cbn [half_sq s_func]. rewrite quad_value. cbn. unfold dot, vsum. cbn. lra. Qed.
Lemma half_grad : forall q x, length x = 1%nat -> s_grad (half_sq q) x = x.
Proof. intros q x L. destruct x as [|a [|]]; try discriminate. cbn [half_sq s_grad]. unfold quad_grad. cbn. unfold vscale. destruct (Req_EM_T 1 1) as [_|N]; [auto|exfalso; apply N; auto]. Qed.
Definition zero_pen : nobj := of_cone (new_cone KZero 1 None None).
Theorem loses_quadratic : let N := mk_qnewton (half_sq own_sq) zero_pen no_quad [[1]] [0] in
  good_smooth 1 (qn_smooth N) /\ exact_obj 1 (fun _ => Fin 0) (qn_atom N) /\ positive_definite 1 (qn_hessian N) /\
  is_argmin 1 (newton_model (s_grad (qn_smooth N) (qn_coefs N)) (qn_hessian N) (plus_quad 1 (fun _ => Fin 0) (qn_quadratic N)) (qn_coefs N)) (zeros 1) /\
  qn_objective N (qn_coefs N) = Fin (/ 2) /\ qn_objective N [/ 2] = Fin (/ 4).
Proof.
  cbv zeta. assert (G : good_quad 1 own_sq). { split; [split; cbn; auto|]. split; [cbn; auto|cbn; lra]. }
  assert (EO : exact_obj 1 (fun _ => Fin 0) zero_pen) by (apply zero_exact; lia).
  split; [apply half_good; auto|]. split; [exact EO|]. split; [apply one_pd|]. split.
  - cbn [qn_smooth qn_coefs qn_hessian qn_quadratic]. rewrite half_grad by auto. split; [reflexivity|]. split; [unfold newton_model, plus_quad; cbn [ext_add]; eauto|]. intros v L. unfold newton_model, plus_quad. cbn [ext_add ext_le]. rewrite !silent_no_quad.
    destruct v as [|a [|]]; try discriminate. unfold form, dot, vsum. cbn. unfold dot, vsum. cbn. pose proof (Rle_0_sqr a). unfold Rsqr in *. lra.
  - unfold qn_objective, qn_nonsmooth. cbn [qn_atom qn_coefs qn_smooth qn_quadratic]. split.
    + rewrite (eo_value _ _ _ EO [0] 0 true) by auto. cbn [rmap or_inf ext_add half_sq s_quadratic]. rewrite half_func. rewrite !(q_func_eq 1) by (split; cbn; auto). unfold q_denot, quad_fun, sqn, dot, vsum. cbn. f_equal. lra.
    + rewrite (eo_value _ _ _ EO [/ 2] 0 true) by auto. cbn [rmap or_inf ext_add half_sq s_quadratic]. rewrite half_func. rewrite !(q_func_eq 1) by (split; cbn; auto). unfold q_denot, quad_fun, sqn, dot, vsum. cbn. f_equal. lra.
Qed.

(** minimize x^2/2 + |x| from 0, its solution *)
Definition at_solution : qnewton := mk_qnewton (half_sq no_quad) (of_atom (l1_one 1)) no_quad [[1]] [0].
Theorem solution_is_nan : is_argmin 1 (objective (s_func (half_sq no_quad)) (fun x => Fin (1 * ell1 x))) (qn_coefs at_solution) /\ positive_definite 1 (qn_hessian at_solution) /\
  exists loops fuel, forall niter search, qn_solve (S niter) loops fuel (fun _ => plain_run) search at_solution = Err NaNResult.
Proof.
  assert (A0 : forall x, length x = 1%nat -> 0 <= ell1 x). { intros x _. unfold ell1. induction x as [|a x IH]; cbn; [lra|]. pose proof (Rabs_pos a). unfold vsum in *. lra. }
  assert (E0 : ell1 [0] = 0) by (unfold ell1, vsum; cbn; rewrite Rabs_R0; lra).
  split; [|split; [apply one_pd|]].
  - cbn [at_solution qn_coefs]. split; auto. split; [unfold objective; cbn [ext_add]; eauto|]. intros v L. unfold objective. cbn [ext_add ext_le]. rewrite E0. destruct v as [|a [|]]; try discriminate. rewrite !half_func. specialize (A0 [a] eq_refl). pose proof (Rle_0_sqr a). unfold Rsqr in *. lra.
  - assert (GS : good_smooth 1 (half_sq no_quad)) by (apply half_good, no_quad_good). assert (EO : exact_obj 1 (fun x => Fin (1 * ell1 x)) (of_atom (l1_one 1))) by (apply l1_one_exact; lra).
    assert (PSD : forall d, length d = 1%nat -> 0 <= form [[1]] d) by (intros; apply (pd_form_nonneg 1); [apply one_pd|auto]).
    assert (GI := inner_good at_solution 1 (proj1 one_pd) PSD eq_refl). assert (Ll : length (qn_linear at_solution) = 1%nat) by (unfold qn_linear; cbn [at_solution qn_smooth qn_coefs qn_hessian]; rewrite half_grad by reflexivity; reflexivity).
    destruct (good_sum 1 _ _ (linear_good 1 _ Ll) (no_quad_good 1)) as (q & Eq & Gq & _).
    assert (Lip : lipschitz_map 1 (s_grad (p_smooth (qn_problem at_solution))) 1).
    { intros x y Lx Ly. assert (G1 : forall v, length v = 1%nat -> s_grad (p_smooth (qn_problem at_solution)) v = v). { intros v L. destruct v as [|a [|]]; try discriminate. cbn. unfold quad_grad. cbn. unfold vscale. destruct (Req_EM_T 1 1) as [_|N]; [|exfalso; apply N; auto]. unfold dot, vsum. cbn. f_equal. lra. }
      rewrite !G1 by auto. lra. }
    destruct (simple_solve_ends 1 (fun x => Fin (1 * ell1 x)) (qn_problem at_solution) q GI EO (no_quad_good 1) Gq eq_refl ltac:(cbn; eauto) plain_run 1 eq_refl ltac:(cbn; lra) ltac:(lra) Lip) as (fuel0 & K).
    exists (max_of plain_run), fuel0. destruct (K (max_of plain_run) fuel0 (le_n _) (le_n _)) as (P' & v & x & Es). intros niter search.
    assert (Ei : qn_inner (max_of plain_run) fuel0 plain_run at_solution = Ok (vsub x (qn_coefs at_solution), s_grad (half_sq no_quad) [0], x)).
    { unfold qn_inner. change (qn_quadratic at_solution) with no_quad. rewrite Eq. cbn [rbind]. rewrite Es. reflexivity. }
    assert (HP : forall k : nat, p_backtrack ((fun _ : nat => plain_run) k) = true /\ 0 < p_start_step ((fun _ : nat => plain_run) k)) by (intros k; split; [reflexivity|cbn; lra]).
    apply (zero_solution_nan 1 (fun x => Fin (1 * ell1 x)) at_solution niter _ _ (fun _ => plain_run) search _ _ _ GS EO (no_quad_good 1) (proj1 one_pd) PSD eq_refl ltac:(eauto) HP Ei).
    cbn [at_solution qn_smooth qn_hessian qn_quadratic]. rewrite half_grad by reflexivity. split; [reflexivity|]. split; [unfold newton_model, plus_quad; cbn [ext_add]; eauto|]. intros w L. unfold newton_model, plus_quad. cbn [ext_add ext_le]. rewrite !silent_no_quad.
    rewrite !dot_zeros_l. assert (H1 : 0 <= form [[1]] w) by (apply PSD; auto). unfold form at 1. rewrite dot_zeros_l. rewrite (vadd_comm (zeros 1) w). rewrite !vadd_zeros_r by auto. change (zeros 1) with [0]. rewrite E0. specialize (A0 w L). lra.
Qed.
