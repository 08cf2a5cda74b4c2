(** Consequences for whole runs of solve, and the cases that fail. *)
From Coq Require Import Reals List Lra Lia Arith Bool.
From Verif Require Import M_affine SpecAffine P_affine M_loss SpecLoss M_smooth SpecSmooth P_smooth Vec Spec SpecConvex M_quad P_quad P_calc P_sep P_loss M_semi SpecAtom M_shift SpecBase SpecCone M_cones P_cones M_fista SpecFista P_fista P_fista2 M_problem SpecProblem P_problem P_separable.
Import ListNotations.
Local Open Scope R_scope.

Section Simple.
Variables (n : nat) (H : vec -> ext) (P : sproblem) (q : iq).
Hypotheses (GS : good_smooth n (p_smooth P)) (EX : exact_obj n H (p_atom P)) (GQ : good_quad n (p_quadratic P)) (Gq : good_quad n q) (Lc : length (p_coefs P) = n) (Hf : exists r, H (p_coefs P) = Fin r).
Let f := s_func (p_smooth P).
Let h := plus_quad n (simple_fun n (p_smooth P) H (p_quadratic P)) q.
Theorem simple_solve_ends : forall prm L, p_backtrack prm = true -> 0 < p_start_step prm -> 0 < L -> lipschitz_map n (s_grad (p_smooth P)) L ->
  exists fuel0, forall loops fuel, (max_of prm <= loops)%nat -> (fuel0 <= fuel)%nat -> exists P' v x, simple_solve loops fuel prm P (Some q) = (P', Ok (v, x)).
Proof.
  intros prm L Hb Hs HL Lip. destruct (good_sum n (p_quadratic P) q GQ Gq) as (nq & En & Gn & Dn).
  assert (X := simple_exact n H (with_quadratic P nq) GS EX Gn). cbn [p_smooth p_quadratic with_quadratic] in X.
  assert (SF : steps_fit n prm (simple_composite (with_quadratic P nq))) by (left; auto).
  assert (G : good_start (simple_fun n (p_smooth P) H nq) (simple_composite (with_quadratic P nq)) (p_coefs P)).
  { destruct Hf as (r & Er). unfold good_start. assert (E : exists s, simple_fun n (p_smooth P) H nq (p_coefs P) = Fin s) by (unfold simple_fun, plus_quad; rewrite Er; cbn; eauto). destruct E as (s & Es). rewrite Es. apply (ex_nonsmooth _ _ _ _ X); auto. }
  destruct (fit_terminates n _ _ _ X prm SF L HL Lip (p_coefs P) None false Lc G Hs) as (fuel0 & K). exists fuel0. intros loops fuel H1 H2. destruct (K loops fuel H1 H2) as (s & Es).
  unfold simple_solve. rewrite En. cbv zeta. rewrite Es. eauto.
Qed.
(** The accuracy of the reported optimum, after k = s_it iterations without monotonicity checks or restarts. *)
Theorem simple_solve_rate : forall loops fuel prm P' v x z Fz, p_backtrack prm = true -> 0 < p_start_step prm -> p_monotonicity prm = false -> p_restart prm = None -> (max_of prm <= 99)%nat ->
  length z = n -> objective f h z = Fin Fz -> (forall y, length y = n -> ext_le (Fin Fz) (objective f h y)) ->
  simple_solve loops fuel prm P (Some q) = (P', Ok (v, x)) -> exists C s, fit loops fuel prm C (p_coefs P) None false = Ok s /\ s_coefs s = x /\ exists r, v = Fin r /\ Fz <= r /\
  (s_it s <> 0%nat -> r - Fz <= 2 * sqn (vsub (p_coefs P) z) / (s_step s * ((INR (s_it s) + 1) * (INR (s_it s) + 1)))).
Proof.
  intros loops fuel prm P' v x z Fz Hb Hs Hm Hr Hx Lz Ez Mz E. destruct (simple_solve_spec n H P q loops fuel prm P' v x GS EX GQ Gq Lc Hf Hb Hs E) as (_ & Lx & (r & Er) & Ev & nq & s & En & K). cbv zeta in K. destruct K as (X & G & Ef & Es).
  exists (simple_composite (with_quadratic P nq)), s. split; auto. split; auto. exists r. split; auto. fold f h in Ev, X, G. assert (Ev2 : objective f h x = Fin r) by congruence. split.
  - specialize (Mz x Lx). rewrite Ev2 in Mz. exact Mz.
  - intros Hi. destruct (fista_rate n f h (simple_composite (with_quadratic P nq)) X prm z Fz) with (loops := loops) (fuel := fuel) (x0 := p_coefs P) (st := @None R) (att := false) (s := s) as (Fs & E1 & E2 & _); auto; [left; auto|].
    rewrite Es in E1. rewrite Ev2 in E1. injection E1 as ->. exact E2.
Qed.
End Simple.

(** ** Lost terms *)
Definition two_sq : iq := mk_iq 2 (FScal 0) (FScal 0) 0.
Lemma two_sq_at : q_denot 1 two_sq [1] = 1.
Proof. unfold q_denot, quad_fun, sqn, dot, vsum. cbn. lra. Qed.
Theorem affine_loses : exists a, cls_affine (Gaussian [0]) (matrix [[1]] 1 None) (Some [0]) 1 (Some two_sq) [1] = Ok a /\ s_objective 1 a [1] = / 2 /\ full_objective a [1] = 3 / 2.
Proof.
  unfold cls_affine. destruct (Rlt_dec 1 0); [exfalso; lra|]. eexists. split; [reflexivity|]. 
  assert (N : norm_offset (Some (vopp [0])) = None). { unfold norm_offset. assert (all_zero (vopp [0]) = true) as -> by (apply P_quad.all_zero_spec; cbn; f_equal; lra). reflexivity. }
  rewrite N. assert (V : s_func (SAff (SLoss (Gaussian [0]) 1 1 None [1] two_sq) (matrix [[1]] 1 None) no_quad) [1] = / 2).
  { cbn [s_func loss_func]. unfold matrix. cbn. unfold scale. destruct (Req_EM_T 1 1); [|exfalso; lra]. unfold dot, vsum. cbn. lra. }
  assert (Z : q_denot 1 no_quad [1] = 0) by (unfold q_denot, quad_fun, sqn, dot, vsum; cbn; lra).
  split.
  - unfold s_objective, s_nonsmooth. cbn [t_out matrix length s_quadratic]. rewrite Z. etransitivity; [|apply Rplus_0_r]. f_equal. exact V.
  - cbn [full_objective s_quadratic t_out matrix length]. rewrite Z. assert (T : t_aff (matrix [[1]] 1 None) [1] = [1]) by (cbn; unfold dot, vsum; cbn; f_equal; lra). rewrite T. cbn [length]. rewrite two_sq_at. cbn [meaning]. unfold doc_loss, sum_over, vsum, minus. cbn. lra.
Qed.
Theorem sum_loses : exists a, new_sum [SZero 1 two_sq] None = Ok a /\ s_objective 1 a [1] = 0 /\ full_objective a [1] = 1.
Proof.
  unfold new_sum. cbn. destruct (Rlt_dec 1 0); [exfalso; lra|]. cbn. eexists. split; [reflexivity|]. split.
  - unfold s_objective, s_nonsmooth, q_denot, quad_fun, sqn, dot, vsum, acc_func. cbn. lra.
  - unfold q_denot, quad_fun, sqn, dot, vsum. cbn. unfold q_denot, quad_fun, sqn, dot, vsum. cbn. lra.
Qed.

(** ** smooth.solve reports the wrong optimum *)
Definition plain_run : params := mk_params None None (Some 50%nat) true 1 None false false true.
Definition lifted : iq := mk_iq 1 (FScal 0) (FScal 0) 1.
Lemma lifted_good : good_quad 1 lifted.
Proof. split; [split; exact I|]. split; [cbn; auto|cbn; lra]. Qed.
Lemma no_quad_good : forall n, good_quad n no_quad.
Proof. intros n. split; [split; exact I|]. split; [cbn; auto|cbn; lra]. Qed.
Lemma zero_smooth_good : good_smooth 1 (SZero 1 no_quad).
Proof. split; [reflexivity|]. split; [exact I|]. split; [apply no_quad_good|]. intros x _. split; exact I. Qed.
Theorem smooth_optimum_wrong : exists loops fuel x v, smooth_solve loops fuel plain_run 0 (SZero 1 no_quad) [1] (Some lifted) = (SZero 1 no_quad, x, Ok (v, x)) /\ length x = 1%nat /\ v = 0 /\ 1 <= s_func (SZero 1 no_quad) x + q_denot 1 lifted x.
Proof.
  destruct (good_sum 1 no_quad lifted (no_quad_good 1) lifted_good) as (nq & En & Gn & Dn).
  set (a := set_quadratic (SZero 1 no_quad) nq). assert (X := smooth_exact 1 a 0 (set_quadratic_good 1 _ nq zero_smooth_good Gn)).
  assert (SF : steps_fit 1 plain_run (smooth_composite a 0)) by (left; auto).
  assert (Lip : lipschitz_map 1 (c_grad (smooth_composite a 0)) 1). { intros x y Lx Ly. cbn. rewrite Lx, Ly. rewrite vsub_self. unfold norm at 1. rewrite zeros_length, sqn_zeros, sqrt_0. assert (0 <= norm (vsub x y)) by apply norm_nonneg. lra. }
  destruct (fit_terminates 1 _ _ _ X plain_run SF 1 ltac:(lra) Lip [1] None false eq_refl) as (fuel0 & K).
  { unfold good_start. apply (ex_nonsmooth _ _ _ _ X); auto. } { cbn. lra. }
  destruct (K 50%nat fuel0 (le_n _) (le_n _)) as (s & Es).
  assert (E : smooth_solve 50 fuel0 plain_run 0 (SZero 1 no_quad) [1] (Some lifted) = (SZero 1 no_quad, s_coefs s, Ok (smooth_value (SZero 1 no_quad) (s_coefs s), s_coefs s))).
  { unfold smooth_solve. change (s_quadratic (SZero 1 no_quad)) with no_quad. rewrite En. cbv zeta. fold a. rewrite Es. reflexivity. }
  apply (smooth_solve_spec 1) in E; [|apply zero_smooth_good|apply lifted_good|reflexivity|left; reflexivity|cbn; lra]. assert (E' : smooth_solve 50 fuel0 plain_run 0 (SZero 1 no_quad) [1] (Some lifted) = (SZero 1 no_quad, s_coefs s, Ok (smooth_value (SZero 1 no_quad) (s_coefs s), s_coefs s))).
  { unfold smooth_solve. change (s_quadratic (SZero 1 no_quad)) with no_quad. rewrite En. cbv zeta. fold a. rewrite Es. reflexivity. }
  cbv zeta in E. destruct E as (_ & _ & Lx & Ev & _).
  exists 50%nat, fuel0, (s_coefs s), (smooth_value (SZero 1 no_quad) (s_coefs s)). split; auto. split; auto. split.
  - rewrite Ev. cbn [s_func s_quadratic]. unfold q_denot, quad_fun. cbn [no_quad coef center linear_term constant_term fbcast]. rewrite const_vec_0, dot_zeros_l. lra.
  - cbn [s_func]. unfold q_denot, quad_fun. cbn [lifted coef center linear_term constant_term fbcast]. rewrite const_vec_0, dot_zeros_l. assert (0 <= sqn (vsub (s_coefs s) (zeros 1))) by apply sqn_nonneg. lra.
Qed.

(** ** An exception leaves the added quadratic behind *)
Definition bad_step : params := mk_params None None (Some 50%nat) true 0 None false false true.
Lemma zero_step_raises : forall loops fuel prm C x0, (0 < max_of prm)%nat -> p_backtrack prm = true -> p_start_step prm = 0 -> fit (S loops) (S fuel) prm C x0 None false = Err ZeroDivisionError.
Proof.
  intros loops fuel prm C x0 Hm Hb Hs. unfold fit. cbn [fista_loop]. set (s := fista_start prm C x0 None false). assert (E1 : s_it s = 0%nat) by reflexivity. assert (E2 : s_step s = 0) by exact Hs. rewrite E1. rewrite (proj2 (Nat.ltb_lt _ _) Hm).
  unfold iterate. rewrite Hb. unfold backtrack. cbv zeta. set (up := orb _ _). assert (E3 : (if up then s_step s * alpha else s_step s) = 0) by (rewrite E2; destruct up; lra). rewrite E3. cbn [backtrack_loop]. destruct (Req_EM_T 0 0) as [_|N]; [reflexivity|exfalso; apply N; reflexivity].
Qed.
Theorem raise_keeps_quadratic : exists newq, smooth_solve 50 50 bad_step 0 (SZero 1 no_quad) [1] (Some lifted) = (SZero 1 newq, [1], Err ZeroDivisionError) /\ q_denot 1 newq [1] = 3 / 2 /\
  simple_solve 50 50 bad_step (simple_of_smooth (SZero 1 no_quad) 1) (Some lifted) = (with_quadratic (simple_of_smooth (SZero 1 no_quad) 1) newq, Err ZeroDivisionError) /\ q_denot 1 (p_quadratic (simple_of_smooth (SZero 1 no_quad) 1)) [1] = 0.
Proof.
  destruct (good_sum 1 no_quad lifted (no_quad_good 1) lifted_good) as (nq & En & Gn & Dn). exists nq.
  assert (F : forall C x0, fit 50 50 bad_step C x0 None false = Err ZeroDivisionError) by (intros C x0; apply (zero_step_raises 49 49); [apply Nat.ltb_lt; reflexivity|reflexivity|reflexivity]).
  split; [|split; [|split]].
  - unfold smooth_solve. change (s_quadratic (SZero 1 no_quad)) with no_quad. rewrite En. cbv zeta. rewrite F. reflexivity.
  - rewrite Dn by reflexivity. unfold q_denot, quad_fun, sqn, dot, vsum. cbn. lra.
  - unfold simple_solve. change (p_quadratic (simple_of_smooth (SZero 1 no_quad) 1)) with no_quad. rewrite En. cbv zeta. rewrite F. reflexivity.
  - unfold q_denot, quad_fun, sqn, dot, vsum. cbn. lra.
Qed.

(** ** l1 norms on the line *)
Definition l1_one (lam : R) : atom := mk_atom CL1 1 (Some lam) None None no_quad.
Lemma l1_one_exact : forall lam, 0 <= lam -> exact_obj 1 (fun x => Fin (lam * ell1 x)) (of_atom (l1_one lam)).
Proof.
  intros lam Hl. apply (exact_obj_ext 1 (atom_doc 1 (l1_one lam) (Lagrange lam))).
  - intros x Lx. unfold atom_doc, doc_objective, atom_off. cbn [a_offset a_quadratic l1_one klass off_vec no_quad coef center linear_term constant_term fbcast mode_fun doc_seminorm ext_scale]. rewrite vsub_zeros_r by auto. unfold quad_fun. rewrite const_vec_0, dot_zeros_l. cbn [ext_add]. f_equal. lra.
  - apply atom_exact; cbn; auto; try lra; [|split; auto|split; discriminate]. split; auto. split; [intros o Eo; discriminate|split; exact I].
Qed.
Lemma one_vec : forall v : vec, length v = 1%nat -> exists t, v = [t].
Proof. intros [|t [|? ?]] L; try discriminate. eauto. Qed.
Lemma ell1_one : forall t, ell1 [t] = Rabs t.
Proof. intros t. unfold ell1, vsum. cbn. lra. Qed.
Definition at4 : iq := mk_iq 1 (FVec [4]) (FScal 0) 0.
Lemma at4_denot : forall t, q_denot 1 at4 [t] = / 2 * ((t - 4) * (t - 4)).
Proof. intros t. unfold q_denot, quad_fun, sqn, dot, vsum. cbn. lra. Qed.
Lemma l1_at4 : forall t, is_argmin 1 (plus_quad 1 (fun x => Fin (1 * ell1 x)) at4) [t] -> t = 3.
Proof.
  intros t (_ & _ & M). specialize (M [3] eq_refl). unfold plus_quad in M. cbn [ext_add ext_le] in M. rewrite !ell1_one, !at4_denot in M. rewrite (Rabs_pos_eq 3) in M by lra. assert (K := Rle_abs t). nra.
Qed.
(** Two equal groups are accepted, and the proximal map then forgets all but the last of the two penalties. *)
Theorem separable_wrong : exists S v, new_separable 1 [of_atom (l1_one 1); of_atom (l1_one 1)] [[0%nat]; [0%nat]] true = Ok S /\ o_prox (of_separable S) at4 = Ok v /\
  ~ is_argmin 1 (plus_quad 1 (separable_fun [(fun x => Fin (1 * ell1 x)); (fun x => Fin (1 * ell1 x))] [[0%nat]; [0%nat]]) at4) v.
Proof.
  set (A := of_atom (l1_one 1)). assert (X : exact_obj 1 (fun x => Fin (1 * ell1 x)) A) by (apply l1_one_exact; lra). assert (S4 : q_shape 1 at4) by (split; cbn; auto).
  destruct (eo_prox _ _ _ (zero_exact 1 (le_n 1)) at4 S4 ltac:(cbn; lra) I) as (v0 & E0 & L0 & _). cbn [of_cone o_prox] in E0.
  assert (G : q_getitem at4 [0%nat] = Ok at4) by reflexivity. destruct (eo_prox _ _ _ X at4 S4 ltac:(cbn; lra) I) as (w & Ew & Mw). assert (Mw' := Mw). destruct Mw' as (Lw & _). destruct (one_vec w Lw) as (t & ->). apply l1_at4 in Mw. subst t. destruct (one_vec v0 L0) as (t0 & ->).
  eexists. exists [3]. split; [reflexivity|]. split.
  - cbn [of_separable o_prox]. unfold sep_prox. cbn [sp_shape sp_parts combine]. rewrite E0. cbn [rbind sep_assign]. rewrite G. cbn [rbind]. rewrite Ew. cbn [rbind]. reflexivity.
  - intros (_ & _ & M). specialize (M [2] eq_refl). unfold plus_quad in M. cbn [separable_fun part_of map nth ext_add ext_le] in M. rewrite !ell1_one, !at4_denot, !Rabs_pos_eq in M by lra. lra.
Qed.

(** ** gengrad stops at points that are not minimizers *)
Definition sq_loss : satom := SQuad None 1 1 (Some [1]) no_quad.
Lemma sq_loss_func : forall t, s_func sq_loss [t] = / 2 * ((t - 1) * (t - 1)).
Proof. intros t. cbn [sq_loss s_func]. unfold quad_func, sub_offset. cbv zeta. rewrite norm_sq. unfold scale. destruct (Req_EM_T 1 1); [|exfalso; lra]. unfold sqn, dot, vsum. cbn. lra. Qed.
Lemma sq_loss_grad : forall t, s_grad sq_loss [t] = [t - 1].
Proof. intros t. cbn [sq_loss s_grad]. unfold quad_grad, sub_offset. cbv zeta. unfold vscale. destruct (Req_EM_T 1 1); [|exfalso; lra]. reflexivity. Qed.
Theorem gengrad_wrong : let P := new_simple sq_loss (of_atom (l1_one (/ 2))) [3 / 4] in let F := objective (s_func sq_loss) (simple_fun 1 sq_loss (fun x => Fin (/ 2 * ell1 x)) no_quad) in
  exact_obj 1 (fun x => Fin (/ 2 * ell1 x)) (p_atom P) /\
  is_argmin 1 (fun z => ext_add (F z) (Fin (q_denot 1 (gengrad_quadratic P 1 (p_coefs P)) z))) (p_coefs P) /\ ~ is_argmin 1 F (p_coefs P) /\ is_argmin 1 F [/ 2].
Proof.
  cbv zeta. cbn [new_simple p_atom p_coefs]. split; [apply l1_one_exact; lra|].
  assert (Z : forall t, q_denot 1 no_quad [t] = 0) by (intros t; unfold q_denot, quad_fun, sqn, dot, vsum; cbn; lra).
  assert (K : forall t, objective (s_func sq_loss) (simple_fun 1 sq_loss (fun x => Fin (/ 2 * ell1 x)) no_quad) [t] = Fin (/ 2 * ((t - 1) * (t - 1)) + / 2 * Rabs t)).
  { intros t. unfold objective, simple_fun, plus_quad. cbn [ext_add]. rewrite sq_loss_func, ell1_one. change (s_quadratic sq_loss) with no_quad. rewrite Z. f_equal. lra. }
  split; [|split].
  - split; auto. split; [rewrite K; cbn; eauto|]. intros z Lz. destruct (one_vec z Lz) as (t & ->). rewrite !K. unfold gengrad_quadratic. cbn [p_smooth new_simple]. rewrite sq_loss_grad. 
    assert (D : forall u, q_denot 1 (mk_iq 1 (FVec [3 / 4]) (FVec [3 / 4 - 1]) 0) [u] = / 2 * ((u - 3 / 4) * (u - 3 / 4)) - / 4 * u) by (intros u; unfold q_denot, quad_fun, sqn, dot, vsum; cbn; lra).
    rewrite !D. cbn [ext_add ext_le]. rewrite (Rabs_pos_eq (3 / 4)) by lra. assert (A := Rle_abs t). assert (Q := Rle_0_sqr (t - 3 / 4)). unfold Rsqr in Q. lra.
  - intros (_ & _ & M). specialize (M [/ 2] eq_refl). rewrite !K in M. cbn [ext_le] in M. rewrite !Rabs_pos_eq in M by lra. lra.
  - split; auto. split; [rewrite K; eauto|]. intros z Lz. destruct (one_vec z Lz) as (t & ->). rewrite !K. cbn [ext_le]. rewrite (Rabs_pos_eq (/ 2)) by lra. assert (A := Rle_abs t). assert (Q := Rle_0_sqr (t - / 2)). unfold Rsqr in Q. lra.
Qed.
