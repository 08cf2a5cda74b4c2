(** Histories of BFGS updates, the inner problem, fixed points and descent of the quasi-Newton method. *)
From Coq Require Import Reals List Lra Lia Arith Bool.
From Verif Require Import M_affine SpecAffine P_affine P_affine2 M_loss SpecLoss M_smooth SpecSmooth P_smooth Vec Spec SpecConvex M_quad P_quad P_calc M_semi SpecAtom M_shift SpecBase SpecCone M_cones M_fista SpecFista P_fista P_fista2 M_problem SpecProblem P_problem P_problem2 SpecNewton M_newton SpecNewton2 P_newton.
Import ListNotations.
Local Open Scope R_scope.

(** ** Many updates *)
Theorem bfgs_history : forall n ops H, positive_definite n H -> Forall (curved n) ops -> exists H', updates H ops = Ok H' /\ positive_definite n H'.
Proof.
  intros n ops. induction ops as [|[[[x0 x1] g0] g1] ops IH]; intros H PD F; [cbn; eauto|]. destruct (Forall_inv F) as (A & B & C & D & E). apply Forall_inv_tail in F. cbn [updates].
  destruct (bfgs_update n H x0 x1 g0 g1 PD A B C D E) as (H1 & E1 & P1 & _). rewrite E1. cbn [rbind]. apply IH; auto.
Qed.
Theorem bfgs_raises : forall H x0 x1 g0 g1, update_hessian H x0 x1 g0 g1 = Err ValueError <-> dot (vsub g1 g0) (vsub x1 x0) < - / 10 ^ 5.
Proof. intros. unfold update_hessian. destruct (Rlt_dec _ _); [tauto|]. split; [|tauto]. destruct (Req_EM_T _ _); [discriminate|]. destruct (Req_EM_T _ _); discriminate. Qed.
(** Gradients of a convex function never have negative products. *)
Lemma convex_monotone : forall n f g x y, convex_on n f -> gradient_of n f g -> length x = n -> length y = n -> 0 <= dot (vsub (g y) (g x)) (vsub y x).
Proof.
  intros n f g x y C G Lx Ly. pose proof (convex_tangent n f x (g x) y C (G x Lx) Lx Ly) as A. pose proof (convex_tangent n f y (g y) x C (G y Ly) Ly Lx) as B.
  pose proof (proj1 (G x Lx)) as E1. pose proof (proj1 (G y Ly)) as E2. rewrite dot_sub_l by vlen. rewrite !dot_sub_r in * by vlen. lra.
Qed.
Theorem convex_never_raises : forall n f g H x y, convex_on n f -> gradient_of n f g -> length x = n -> length y = n -> update_hessian H x y (g x) (g y) <> Err ValueError.
Proof. intros n f g H x y C G Lx Ly E. apply bfgs_raises in E. pose proof (convex_monotone n f g x y C G Lx Ly). assert (0 < / 10 ^ 5) by (apply Rinv_0_lt_compat, pow_lt; lra). lra. Qed.
(** ** The starting matrix *)
Lemma unit_row_vec : forall n i, unit_row n i = unit_vec n i.
Proof. intros. unfold unit_row, unit_vec. apply map_ext. intros j. rewrite Nat.eqb_sym. auto. Qed.
Lemma square_eye : forall n, square n (eye n).
Proof. intros n. split; [unfold eye; rewrite map_length, seq_length; auto|]. unfold eye. apply Forall_map. apply Forall_forall. intros. unfold unit_row. rewrite map_length, seq_length. auto. Qed.
Lemma entry_eye : forall n i j, (i < n)%nat -> (j < n)%nat -> SpecNewton.entry (eye n) i j = if Nat.eqb i j then 1 else 0.
Proof.
  intros n i j Hi Hj. unfold SpecNewton.entry, eye. rewrite (nth_indep _ [] (unit_row n 0)) by (rewrite map_length, seq_length; auto). rewrite (map_nth (unit_row n)). rewrite seq_nth by auto. cbn [Nat.add].
  unfold unit_row. rewrite (nth_indep _ 0 (if Nat.eqb i 0 then 1 else 0)) by (rewrite map_length, seq_length; auto). rewrite (map_nth (fun j => if Nat.eqb i j then 1 else 0)). rewrite seq_nth by auto. reflexivity.
Qed.
Lemma symmetric_eye : forall n, symmetric n (eye n).
Proof. intros n. split; [apply square_eye|]. intros i j Hi Hj. rewrite !entry_eye by auto. rewrite Nat.eqb_sym. auto. Qed.
Lemma mat_vec_eye : forall n d, length d = n -> mat_vec (eye n) d = d.
Proof.
  intros n d L. apply nth_ext_R; [rewrite mat_vec_length; rewrite (proj1 (square_eye n)); auto|]. intros i Hi. rewrite mat_vec_length, (proj1 (square_eye n)) in Hi. unfold mat_vec, eye. rewrite map_map.
  rewrite (nth_indep _ 0 (dot (unit_row n 0) d)) by (rewrite map_length, seq_length; auto). rewrite (map_nth (fun i => dot (unit_row n i) d)). rewrite seq_nth by auto. cbn [Nat.add]. rewrite unit_row_vec, dot_comm. apply dot_unit; auto.
Qed.
Lemma diag_from_length : forall A i, length (diag_from i A) = length A.
Proof. induction A as [|r A IH]; intros i; cbn; auto. Qed.
Theorem initial_pd : forall n a A H0 q x, symmetric n H0 -> (forall d, length d = n -> 0 <= form H0 d) -> 0 < vsum (mat_diag H0) -> positive_definite n (qn_hessian (new_qnewton a A H0 q x)) /\
  forall d, length d = n -> form (qn_hessian (new_qnewton a A H0 q x)) d = form H0 d + vsum (mat_diag H0) / INR n * sqn d.
Proof.
  intros n a A H0 q x S PS Tr. cbn [new_qnewton qn_hessian]. assert (LH : length H0 = n) by apply S. rewrite LH. set (m := mean (mat_diag H0)).
  assert (Em : m = vsum (mat_diag H0) / INR n). { unfold m, mean, mat_diag. rewrite diag_from_length, LH. auto. }
  assert (Hn : (0 < n)%nat). { destruct n; [|lia]. destruct H0; [|discriminate]. cbn in Tr. unfold mat_diag, vsum in Tr. cbn in Tr. lra. }
  assert (Pm : 0 < m). { rewrite Em. apply Rdiv_lt_0_compat; auto. apply lt_0_INR. auto. }
  assert (SE : symmetric n (mat_scal 1 (mat_scal m (eye n)))) by (apply symmetric_scal, symmetric_scal, symmetric_eye).
  assert (F : forall d, length d = n -> form (mat_add H0 (mat_scal 1 (mat_scal m (eye n)))) d = form H0 d + m * sqn d).
  { intros d Ld. unfold form. rewrite (mat_vec_add n) by (auto; first [apply S|apply SE]). rewrite !mat_vec_scal, mat_vec_eye, vscal_1 by auto. rewrite dot_add_r by (rewrite ?mat_vec_length, ?vscal_length; lc). rewrite dot_scal_r. auto. }
  split; [|intros d Ld; rewrite F, Em; auto]. split; [apply symmetric_add; auto|]. intros d Ld Nd. rewrite F by auto. specialize (PS d Ld). assert (0 <= sqn d) by apply sqn_nonneg.
  assert (sqn d <> 0). { intros E. apply Nd. apply sqn_eq_zero in E. rewrite Ld in E. auto. } nra.
Qed.
(** ** The inner problem *)
Lemma inner_good : forall N n, symmetric n (qn_hessian N) -> (forall d, length d = n -> 0 <= form (qn_hessian N) d) -> length (qn_coefs N) = n -> good_smooth n (p_smooth (qn_problem N)).
Proof.
  intros N n S PS L. cbn [qn_problem p_smooth]. split; [cbn; rewrite L; split; auto; split; auto; apply symmetric_is_map; auto|]. split; [cbn; rewrite L; split; [lra|exact PS]|]. split; [apply no_quad_good|]. intros; split; exact I.
Qed.
Lemma linear_good : forall n l, length l = n -> good_quad n (mk_iq 0 (FScal 0) (FVec l) 0).
Proof. intros n l L. split; [split; cbn; auto|]. split; [cbn; auto|cbn; lra]. Qed.
Lemma linear_denot : forall n l x, length l = n -> length x = n -> q_denot n (mk_iq 0 (FScal 0) (FVec l) 0) x = dot l x.
Proof. intros n l x L Lx. unfold q_denot, quad_fun. cbn [coef center linear_term constant_term fbcast]. lra. Qed.
Lemma silent_no_quad : forall n x, q_denot n no_quad x = 0.
Proof. intros n x. unfold q_denot, quad_fun. cbn [no_quad coef center linear_term constant_term fbcast]. rewrite const_vec_0, dot_zeros_l. lra. Qed.
Lemma ext_add_0_r : forall e, ext_add e (Fin 0) = e.
Proof. intros [r|]; cbn; auto. f_equal. lra. Qed.
Theorem inner_spec : forall n P N loops fuel prm d g z,
  good_smooth n (qn_smooth N) -> exact_obj n P (qn_atom N) -> good_quad n (qn_quadratic N) -> symmetric n (qn_hessian N) -> (forall d, length d = n -> 0 <= form (qn_hessian N) d) ->
  length (qn_coefs N) = n -> (exists r, P (qn_coefs N) = Fin r) -> p_backtrack prm = true -> 0 < p_start_step prm -> qn_inner loops fuel prm N = Ok (d, g, z) ->
  g = s_grad (qn_smooth N) (qn_coefs N) /\ length d = n /\ z = vadd (qn_coefs N) d /\ (exists r, P z = Fin r) /\
  exists f h C s K, exact_problem n f h C /\ good_start h C (qn_coefs N) /\ fit loops fuel prm C (qn_coefs N) None false = Ok s /\ s_coefs s = z /\
    forall e, length e = n -> objective f h (vadd (qn_coefs N) e) = ext_add (Fin K) (newton_model g (qn_hessian N) (plus_quad n P (qn_quadratic N)) (qn_coefs N) e).
Proof.
  intros n P N loops fuel prm d g z GS EO GQ S PS Lc Fin0 Hb Hst E. unfold qn_inner in E.
  assert (Lg : length (s_grad (qn_smooth N) (qn_coefs N)) = n) by (apply s_grad_length; auto; apply GS). assert (LH : length (qn_hessian N) = n) by apply S.
  assert (Ll : length (qn_linear N) = n) by (unfold qn_linear; rewrite vsub_length; rewrite ?mat_vec_length; lc).
  destruct (good_sum n _ _ (linear_good n _ Ll) GQ) as (q & Eq & Gq & Dq). rewrite Eq in E. cbn [rbind] in E.
  destruct (simple_solve loops fuel prm (qn_problem N) (Some q)) as [P' r] eqn:Es. cbn [snd] in E. destruct r as [[v x]|]; [|discriminate]. cbn [rmap snd] in E. apply Ok_inj in E. injection E as <- <- <-.
  assert (SS := simple_solve_spec n P (qn_problem N) q loops fuel prm P' v x (inner_good N n S PS Lc) EO (no_quad_good n) Gq Lc Fin0 Hb Hst Es). cbv zeta in SS.
  destruct SS as (_ & Lx & (rv & Ev) & Ov & nq & s & En & X & GSt & F & Ex).
  assert (Ezx : x = vadd (qn_coefs N) (vsub x (qn_coefs N))) by (rewrite vadd_comm, vadd_vsub; lc). split; auto. split; [rewrite vsub_length; lc|]. split; auto. split.
  { rewrite Ev in Ov. unfold objective, simple_fun, plus_quad in Ov. destruct (P x) as [r|]; [eauto|discriminate]. }
  eexists _, _, _, s, (dot (s_grad (qn_smooth N) (qn_coefs N)) (qn_coefs N) - / 2 * form (qn_hessian N) (qn_coefs N)). split; [exact X|]. split; [exact GSt|]. split; [exact F|]. split; [exact Ex|]. intros e Le. set (H := qn_hessian N) in *. set (c := qn_coefs N) in *. set (G := s_grad (qn_smooth N) c) in *.
  assert (Ly : length (vadd c e) = n) by (rewrite vadd_length; lc).
  unfold objective, newton_model, simple_fun, plus_quad. cbn [qn_problem p_smooth p_quadratic s_quadratic]. rewrite !silent_no_quad, !ext_add_0_r. rewrite Dq by auto. rewrite linear_denot by auto. cbn [s_func].
  destruct (P (vadd c e)) as [p|]; cbn [ext_add]; auto. f_equal. rewrite quad_value. cbn [minus apply_Q]. fold H. fold (form H (vadd c e)).
  assert (FL := form_line n H c e 1 S Lc Le). rewrite vscal_1 in FL. rewrite FL. unfold qn_linear. fold H c G. rewrite dot_sub_l by (rewrite ?mat_vec_length; lc). rewrite !dot_add_r by (rewrite ?mat_vec_length; lc). rewrite (dot_comm (mat_vec H c) e). rewrite (dot_comm (mat_vec H c) c). fold (form H c). lra.
Qed.
(** ** Where no step is left, and descent *)
Lemma model_zero : forall G H P x n r, length G = n -> length H = n -> length x = n -> P x = Fin r -> newton_model G H P x (zeros n) = Fin r.
Proof. intros G H P x n r LG LH Lx E. unfold newton_model, form. rewrite dot_zeros_r, dot_zeros_l, vadd_zeros_r, E by auto. cbn. f_equal. lra. Qed.
Theorem newton_fixed : forall n f g H P x, convex_on n f -> gradient_of n f g -> convex_ext n P -> symmetric n H -> (forall d, length d = n -> 0 <= form H d) -> length x = n ->
  is_argmin n (newton_model (g x) H P x) (zeros n) -> is_argmin n (objective f P) x.
Proof.
  intros n f g H P x Cf Gf CP S PS Lx (_ & (r & Er) & M). assert (LH : length H = n) by apply S. assert (Lg : length (g x) = n) by apply (Gf x Lx).
  destruct (P x) as [px|] eqn:Ex. 2:{ unfold newton_model in Er. rewrite vadd_zeros_r, Ex in Er by auto. discriminate. }
  split; auto. split; [unfold objective; rewrite Ex; cbn; eauto|]. intros y Ly. unfold objective. rewrite Ex. destruct (P y) as [py|] eqn:Ey; cbn [ext_add ext_le]; auto.
  set (d := vsub y x). assert (Ld : length d = n) by (unfold d; rewrite vsub_length; lc).
  assert (Q : forall t, 0 < t <= 1 -> 0 <= t * (dot (g x) d + py - px) + t * t * (/ 2 * form H d)).
  { intros t Ht. specialize (CP x y t px py Lx Ly ltac:(lra) Ex Ey). unfold between in CP. fold d in CP. specialize (M (vscal t d) ltac:(rewrite vscal_length; auto)). rewrite (model_zero _ _ _ _ _ px) in M by auto. unfold newton_model in M.
    destruct (P (vadd x (vscal t d))) as [pt|]; cbn [ext_le ext_add] in *; [|contradiction]. unfold form in M. rewrite mat_linear_scal in M. rewrite !dot_scal_r, dot_scal_l in M. fold (form H d) in M. nra. }
  pose proof (convex_tangent n f x (g x) y Cf (Gf x Lx) Lx Ly) as T. fold d in T. enough (0 <= dot (g x) d + py - px) by lra.
  set (A := dot (g x) d + py - px) in *. set (B := / 2 * form H d) in *. assert (HB : 0 <= B) by (unfold B; specialize (PS d Ld); lra).
  destruct (Rle_dec 0 A) as [|NA]; auto. exfalso. set (t := Rmin 1 (- A / (2 * (B + 1)))). assert (Pt : 0 < - A / (2 * (B + 1))) by (apply Rdiv_lt_0_compat; lra).
  assert (T1 : 0 < t <= 1) by (unfold t; split; [apply Rmin_pos; lra|apply Rmin_l]). specialize (Q t T1). assert (T2 : t <= - A / (2 * (B + 1))) by apply Rmin_r. assert (t * (B + 1) <= - A / 2). { apply Rle_trans with (- A / (2 * (B + 1)) * (B + 1)); [apply Rmult_le_compat_r; lra|]. right. field. lra. }
  assert (A + t * B < 0) by nra. nra.
Qed.
Theorem newton_descent : forall n f g H P x px d, gradient_of n f g -> convex_ext n P -> positive_definite n H -> length x = n -> P x = Fin px ->
  is_argmin n (newton_model (g x) H P x) d -> d <> zeros n ->
  exists t0, 0 < t0 /\ forall t, 0 < t < t0 -> exists r, objective f P (vadd x (vscal t d)) = Fin r /\ r < f x + px.
Proof.
  intros n f g H P x px d Gf CP PD Lx Ex (Ld & (r & Er) & M) Nd. assert (S := proj1 PD). assert (LH : length H = n) by apply S. assert (Lg : length (g x) = n) by apply (Gf x Lx).
  assert (Fd : 0 < form H d) by (apply PD; auto). destruct (P (vadd x d)) as [pd|] eqn:Ed. 2:{ unfold newton_model in Er. rewrite Ed in Er. discriminate. }
  assert (D : dot (g x) d + pd - px <= - / 2 * form H d). { specialize (M (zeros n) (zeros_length n)). rewrite (model_zero _ _ _ _ _ px) in M by auto. unfold newton_model in M. rewrite Ed in M. cbn in M. lra. }
  destruct (Gf x Lx) as (_ & DD). specialize (DD d Ld). destruct (DD (form H d / 4) ltac:(lra)) as (del & Hdel).
  exists (Rmin 1 del). split; [apply Rmin_pos; [lra|apply del]|]. intros t (Ht & Ht2). assert (T1 : t < 1) by (pose proof (Rmin_l 1 del); lra). assert (T2 : t < del) by (pose proof (Rmin_r 1 del); lra).
  assert (CV := CP x (vadd x d) t px pd Lx ltac:(rewrite vadd_length; lc) ltac:(lra) Ex Ed). assert (EB : between x (vadd x d) t = vadd x (vscal t d)). { unfold between. rewrite (vadd_comm x d) at 1. rewrite vsub_vadd by lc. auto. }
  rewrite EB in CV. unfold objective. destruct (P (vadd x (vscal t d))) as [pt|]; [|contradiction]. cbn in CV. cbn [ext_add]. eexists. split; [reflexivity|].
  assert (K := Hdel t ltac:(lra) ltac:(rewrite Rabs_pos_eq; lra)). rewrite Rplus_0_l in K. rewrite line_zero in K by lc. apply Rabs_def2 in K. destruct K as (K & _).
  assert (K2 : f (vadd x (vscal t d)) - f x < t * (dot (g x) d + form H d / 4)). { apply Rmult_lt_reg_r with (/ t); [apply Rinv_0_lt_compat; lra|]. replace (t * (dot (g x) d + form H d / 4) * / t) with (dot (g x) d + form H d / 4) by (field; lra). unfold Rdiv in K at 1. lra. }
  assert (t * (dot (g x) d + pd - px) <= t * (- / 2 * form H d)) by (apply Rmult_le_compat_l; lra). assert (0 < t * form H d) by (apply Rmult_lt_0_compat; lra). lra.
Qed.
(** ** The whole run *)
Lemma loop_spec : forall n P niter i loops fuel prm search N last N' last',
  good_smooth n (qn_smooth N) -> exact_obj n P (qn_atom N) -> good_quad n (qn_quadratic N) -> strictly_monotone n (s_grad (qn_smooth N)) -> positive_definite n (qn_hessian N) -> length (qn_coefs N) = n ->
  (forall x, length x = n -> exists r, P x = Fin r) -> (forall k, p_backtrack (prm k) = true /\ 0 < p_start_step (prm k)) ->
  qn_loop niter i loops fuel prm search N last = Ok (N', last') ->
  same_parts N N' /\ positive_definite n (qn_hessian N') /\ length (qn_coefs N') = n /\ (forall z, last' = Some z -> last = Some z \/ length z = n).
Proof.
  intros n P niter. induction niter as [|k IH]; intros i loops fuel prm search N last N' last' GS EO GQ SM PD Lc FP HP E; cbn [qn_loop] in E.
  - apply Ok_inj in E. injection E as <- <-. split; [split; auto|]. auto.
  - destruct (qn_inner loops fuel (prm i) N) as [[[d g] z]|] eqn:Ei; [|discriminate]. cbn [rbind] in E.
    assert (S := proj1 PD). destruct (inner_spec n P N loops fuel (prm i) d g z GS EO GQ S (fun d L => pd_form_nonneg n _ d PD L) Lc (FP _ Lc) (proj1 (HP i)) (proj2 (HP i)) Ei) as (Eg & Ld & Ez & _).
    set (new := vadd (qn_coefs N) (vscal (search i (qn_coefs N) d) d)) in *. assert (Ln : length new = n) by (unfold new; rewrite vadd_length; rewrite ?vscal_length; lc).
    assert (Lz : length z = n) by (rewrite Ez, vadd_length; lc).
    destruct (qn_converged (qn_coefs N) new) eqn:Ec.
    + apply Ok_inj in E. injection E as <- <-. split; [split; auto|]. split; auto. split; auto. intros w Ew. injection Ew as <-. auto.
    + destruct (update_hessian (qn_hessian N) (qn_coefs N) new g (s_grad (qn_smooth N) new)) as [H'|] eqn:Eu; [|discriminate]. cbn [rbind] in E.
      assert (Gl : forall x, length x = n -> length (s_grad (qn_smooth N) x) = n) by (intros; apply s_grad_length; auto; apply GS).
      assert (Pys : 0 < dot (vsub (s_grad (qn_smooth N) new) g) (vsub new (qn_coefs N))).
      { rewrite Eg. destruct (list_eq_dec Req_EM_T (qn_coefs N) new) as [En|Nn]; [|apply SM; auto]. exfalso. subst g. rewrite <- En in Eu. unfold update_hessian in Eu. rewrite vsub_self, dot_zeros_l in Eu. destruct (Rlt_dec 0 (- / 10 ^ 5)); [discriminate|]. destruct (Req_EM_T 0 0) as [_|N0]; [discriminate|apply N0; reflexivity]. }
      assert (Lgg : length g = n) by (rewrite Eg; apply Gl; auto). destruct (bfgs_update n _ _ _ _ _ PD Lc Ln Lgg (Gl new Ln) Pys) as (H2 & E2 & P2 & _). rewrite E2 in Eu. apply Ok_inj in Eu. subst H'.
      apply (IH _ _ _ _ _ (qn_move N new H2)) in E; auto. destruct E as (SP & PD' & L' & Z). split; auto. split; auto. split; auto. intros w Ew. destruct (Z w Ew) as [W|W]; auto. injection W as <-. auto.
Qed.
Theorem solve_keeps_pd : forall n P niter loops fuel prm search N N' x,
  good_smooth n (qn_smooth N) -> exact_obj n P (qn_atom N) -> good_quad n (qn_quadratic N) -> strictly_monotone n (s_grad (qn_smooth N)) -> positive_definite n (qn_hessian N) -> length (qn_coefs N) = n ->
  (forall x, length x = n -> exists r, P x = Fin r) -> (forall k, p_backtrack (prm k) = true /\ 0 < p_start_step (prm k)) ->
  qn_solve niter loops fuel prm search N = Ok (N', x) -> same_parts N N' /\ positive_definite n (qn_hessian N') /\ qn_coefs N' = x /\ length x = n.
Proof.
  intros n P niter loops fuel prm search N N' x GS EO GQ SM PD Lc FP HP E. unfold qn_solve in E. destruct (qn_loop _ _ _ _ _ _ _ _) as [[N1 l1]|] eqn:El; [|discriminate]. cbn [rbind fst snd] in E.
  destruct (loop_spec n P niter 0 loops fuel prm search N None N1 l1 GS EO GQ SM PD Lc FP HP El) as ((A & B & C) & PD' & L' & Z). destruct l1 as [z|]; [|discriminate]. apply Ok_inj in E. injection E as <- <-. destruct (Z z eq_refl) as [W|W]; [discriminate|]. split; [split; auto|]. auto.
Qed.
(** ** A solver started at a minimizer stays there *)
Lemma stays_loop : forall n f h C P, exact_problem n f h C -> steps_fit n P C -> forall loops fuel x s s', is_argmin n (objective f h) x -> shaped n f h s -> s_coefs s = x -> s_working s = x ->
  fista_loop loops fuel P C s = Ok s' -> s_coefs s' = x.
Proof.
  intros n f h C P EX SF. induction loops as [|loops IH]; intros fuel x s s' M SH Ec Ew E; cbn [fista_loop] in E.
  - destruct (Nat.ltb (s_it s) (max_of P)); [discriminate|]. apply Ok_inj in E. subst. auto.
  - destruct (Nat.ltb (s_it s) (max_of P)); [|apply Ok_inj in E; subst; auto]. destruct (iterate fuel P C s) as [o|] eqn:Eo; [|discriminate]. cbn [rbind] in E.
    assert (SS := shaped_step n f h C EX P SF fuel s o SH Eo). assert (IC := iterate_cases fuel P C s o Eo). destruct IC as (p & st & att & Ep & IC). cbv zeta in IC.
    destruct (propose_spec n f h C EX P SF fuel s p st att SH Ep) as (Hst & Epp & Le & B & _). assert (En : P_fista2.entry P s = x) by (unfold P_fista2.entry; destruct (restart_now P (s_it s)); auto). rewrite En in Epp, B, Le.
    assert (Epx : p = x). { rewrite Epp. apply (min_is_fixed n f h C EX x st); auto. rewrite <- Epp. exact B. }
    destruct IC as [(s1 & -> & A1 & _)|[(s1 & -> & _ & A1 & A2 & _)|(s1 & -> & _ & A1 & A2 & _)]].
    + apply Ok_inj in E. subst s'. congruence.
    + apply (IH fuel x s1); auto; try congruence. apply SS.
    + apply (IH fuel x s1); auto; try congruence; [apply SS|]. rewrite A2, Epx, Ec, vsub_self. rewrite vscal_zeros. apply vadd_zeros_r. auto.
Qed.
Theorem fit_stays : forall n f h C P, exact_problem n f h C -> steps_fit n P C -> forall loops fuel x st att s, is_argmin n (objective f h) x -> good_start h C x -> 0 < first_step P st ->
  fit loops fuel P C x st att = Ok s -> s_coefs s = x.
Proof.
  intros n f h C P EX SF loops fuel x st att s M GS Hs E. unfold fit in E. apply (stays_loop n f h C P EX SF loops fuel x (fista_start P C x st att)); auto. apply (start_shaped n f h C EX); auto. apply M.
Qed.
(** The next update after a step of length zero divides by zero, unless the point is nonzero. *)
Theorem null_step : forall n x, length x = n -> (x <> zeros n -> qn_converged x x = true) /\ (x = zeros n -> qn_converged x x = false) /\ forall H g, update_hessian H x x g g = Err NaNResult.
Proof.
  intros n x L. assert (Z : max_list 0 (map Rabs (vsub x x)) = 0). { rewrite vsub_self. clear. induction (length x) as [|k IH]; cbn; auto. unfold zeros in IH. rewrite IH. rewrite Rabs_R0. apply Rmax_left. lra. }
  split; [|split].
  - intros N. unfold qn_converged. rewrite Z. destruct (Rlt_dec _ _) as [|K]; auto. exfalso. apply K. apply Rmult_lt_0_compat; [apply Rinv_0_lt_compat, pow_lt; lra|]. destruct (Rle_lt_or_eq_dec 0 (norm x) (norm_nonneg x)) as [|E]; auto. exfalso. apply N. symmetry in E. apply norm_eq_zero in E. rewrite L in E. auto.
  - intros ->. unfold qn_converged. rewrite Z. destruct (Rlt_dec _ _) as [K|]; auto. exfalso. rewrite norm_zeros in K. lra.
  - intros H g. unfold update_hessian. rewrite !vsub_self, dot_zeros_l. assert (0 < / 10 ^ 5) by (apply Rinv_0_lt_compat, pow_lt; lra). destruct (Rlt_dec _ _); [exfalso; lra|]. destruct (Req_EM_T 0 0); [auto|]. exfalso. auto.
Qed.
(** A problem whose solution is zero, started there: nan at the first update. *)
Theorem zero_solution_nan : forall n P N niter loops fuel prm search d g z,
  good_smooth n (qn_smooth N) -> exact_obj n P (qn_atom N) -> good_quad n (qn_quadratic N) -> symmetric n (qn_hessian N) -> (forall d, length d = n -> 0 <= form (qn_hessian N) d) ->
  qn_coefs N = zeros n -> (exists r, P (zeros n) = Fin r) -> (forall k, p_backtrack (prm k) = true /\ 0 < p_start_step (prm k)) -> qn_inner loops fuel (prm 0%nat) N = Ok (d, g, z) ->
  is_argmin n (newton_model (s_grad (qn_smooth N) (zeros n)) (qn_hessian N) (plus_quad n P (qn_quadratic N)) (zeros n)) (zeros n) ->
  qn_solve (S niter) loops fuel prm search N = Err NaNResult.
Proof.
  intros n P N niter loops fuel prm search d g z GS EO GQ S PS Ec FP HP Ei M. assert (Lc : length (qn_coefs N) = n) by (rewrite Ec; apply zeros_length). rewrite <- Ec in FP.
  destruct (inner_spec n P N loops fuel (prm 0%nat) d g z GS EO GQ S PS Lc FP (proj1 (HP 0%nat)) (proj2 (HP 0%nat)) Ei) as (Eg & Ld & Ez & _ & f & h & C & s & K & X & GSt & F & Es & Mo).
  assert (Az : is_argmin n (objective f h) (zeros n)).
  { assert (R : forall y, length y = n -> objective f h y = ext_add (Fin K) (newton_model g (qn_hessian N) (plus_quad n P (qn_quadratic N)) (zeros n) y)).
    { intros y Ly. rewrite <- Ec, <- Mo by auto. rewrite Ec. rewrite vadd_comm, vadd_zeros_r; auto. }
    rewrite <- Ec, <- Eg, Ec in M. destruct M as (A & (r & Er) & B). split; auto. split; [rewrite R by auto; rewrite Er; cbn; eauto|]. intros v Lv. rewrite !R by auto. specialize (B v Lv). rewrite Er in *. destruct (newton_model _ _ _ _ v); cbn in *; [lra|auto]. }
  assert (Zs : z = zeros n). { rewrite <- Es. rewrite Ec in *. apply (fit_stays n f h C (prm 0%nat) X (or_introl (proj1 (HP 0%nat))) loops fuel (zeros n) None false s); auto. apply (HP 0%nat). }
  assert (Zd : d = zeros n). { rewrite Ec, vadd_comm, vadd_zeros_r in Ez by auto. congruence. }
  unfold qn_solve. cbn [qn_loop]. rewrite Ei. cbn [rbind]. rewrite Ec, Zd, vscal_zeros, vadd_zeros_r by apply zeros_length. destruct (null_step n (zeros n) (zeros_length n)) as (_ & N2 & N3). rewrite N2 by auto. rewrite Eg, Ec, N3. reflexivity.
Qed.
