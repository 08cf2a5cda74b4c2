(** Whole runs, and what goes wrong when linear_map is not symmetric. *)
From Coq Require Import Reals List Lra Lia Arith Bool.
From Verif Require Import M_affine SpecAffine P_affine M_loss SpecLoss M_smooth SpecSmooth P_loss P_smooth Vec Spec SpecConvex M_quad P_quad M_semi SpecAtom M_shift SpecBase SpecCone M_cones P_calc M_fista SpecFista P_fista P_fista2 M_problem SpecProblem P_problem P_problem2 M_admm SpecAdmm P_admm P_newton2 P_admm2.
Import ListNotations.
Local Open Scope R_scope.

Lemma solve_is_run : forall niter loops fuel prm lip A A', admm_solve niter loops fuel prm lip A = Ok A' <->
  exists tr : nat -> admm, tr 0%nat = A /\ tr niter = A' /\ forall k, (k < niter)%nat -> admm_iter loops fuel prm lip (tr k) = Ok (tr (S k)).
Proof.
  induction niter as [|niter IH]; intros loops fuel prm lip A A'; cbn [admm_solve].
  - split; [intros E; apply Ok_inj in E; subst; exists (fun _ => A'); repeat split; auto; lia|]. intros (tr & <- & <- & _). auto.
  - split.
    + intros E. destruct (admm_iter loops fuel prm lip A) as [A1|] eqn:E1; [|discriminate]. cbn [rbind] in E. apply IH in E. destruct E as (tr & T0 & T1 & TS). exists (fun k => match k with O => A | S k => tr k end). split; [auto|]. split; [auto|]. intros [|k] Hk; [rewrite T0; auto|]. apply TS. lia.
    + intros (tr & T0 & T1 & TS). assert (E1 := TS 0%nat ltac:(lia)). rewrite T0 in E1. rewrite E1. cbn [rbind]. apply IH. exists (fun k => tr (S k)). split; [auto|]. split; [auto|]. intros k Hk. apply TS. lia.
Qed.
(** A run of solve(niter) whose inner solves are exact. *)
Theorem solve_converges : forall n loss atom T rho h, good_smooth n loss -> exact_obj n h atom -> good_design T n n -> reports_offset T -> self_adjoint T -> 0 < rho ->
  forall niter loops fuel prm lip (tr : nat -> admm) sol, state_of loss atom T rho (tr 0%nat) -> p_backtrack prm = true -> 0 < p_start_step prm -> saddle n n (s_func loss) h T sol ->
  (forall k, (k < S niter)%nat -> admm_iter loops fuel prm lip (tr k) = Ok (tr (S k)) /\ solved n (tr k) (a_x (tr (S k)))) ->
  distance rho sol (point (tr (S niter))) <= distance rho sol (point (tr 0%nat)) /\
  rho * sum_over niter (fun k => sqn (vsub (t_aff T (a_x (tr (S (S k))))) (a_z (tr (S (S k)))))) <= distance rho sol (point (tr 0%nat)).
Proof.
  intros n loss atom T rho h GS EO GD RO SY HR niter loops fuel prm lip tr sol S0 Hb Hs Sd HT.
  assert (SA : forall k, (k <= S niter)%nat -> state_of loss atom T rho (tr k)).
  { induction k as [|k IHk]; intros Hk; auto. destruct (HT k ltac:(lia)) as [E _]. apply (iter_spec n loss atom T rho h GS EO GD RO HR loops fuel prm lip (tr k)); auto. apply IHk. lia. }
  assert (RD : forall k, (k < S niter)%nat -> admm_round n n (s_func loss) h T rho (point (tr k)) (point (tr (S k)))).
  { intros k Hk. destruct (HT k Hk) as [E S]. apply (iter_round n loss atom T rho h GS EO GD RO HR SY loops fuel prm lip); auto. apply SA. lia. }
  destruct (of_state n loss atom T rho GD _ S0) as (_ & _ & _ & _ & _ & Ly & Lz).
  assert (CF := smooth_convex n loss GS). assert (CH := eo_convex n h atom EO).
  destruct (run_closer n n (s_func loss) h T rho CF CH GD HR (S niter) (fun k => point (tr k)) sol Sd Lz Ly RD) as (D & _ & _).
  assert (Q := run_residuals n n (s_func loss) h T rho CF CH GD HR niter (fun k => point (tr k)) sol Sd Lz Ly RD). split.
  - refine (Rle_trans _ _ _ _ D). assert (0 <= sum_over (S niter) (fun k => sqn (vsub (t_aff T (fst (fst (point (tr (S k)))))) (snd (fst (point (tr k))))))); [|nra].
    apply Rle_trans with (sum_over (S niter) (fun _ => 0)); [|apply sum_over_le; intros; apply sqn_nonneg]. clear. unfold sum_over. induction (seq 0 (S niter)) as [|a l IH]; cbn; [lra|]. unfold vsum in IH. lra.
  - refine (Rle_trans _ _ _ _ Q). apply Rmult_le_compat_l; [lra|]. apply sum_over_le. intros k Hk. unfold point. assert (H := sqn_nonneg (vsub (a_z (tr (S (S k)))) (snd (fst (a_x (tr (S k)), a_z (tr (S k)), a_y (tr (S k))))))). lra.
Qed.

(** ** D = [[0, 1], [0, 0]], loss |x - (0,4)|^2/2, penalty the l1 norm *)
Definition nilpotent : transform := matrix [[0; 1]; [0; 0]] 2 None.
Definition far_loss : satom := SQuad None 2 1 (Some [0; 4]) no_quad.
Definition l1_two : atom := mk_atom CL1 2 (Some 1) None None no_quad.
Lemma l1_two_exact : exact_obj 2 (fun x => Fin (ell1 x)) (of_atom l1_two).
Proof.
  apply (exact_obj_ext 2 (atom_doc 2 l1_two (Lagrange 1))).
  - intros x Lx. unfold atom_doc, doc_objective, atom_off. cbn [a_offset a_quadratic l1_two klass off_vec no_quad coef center linear_term constant_term fbcast mode_fun doc_seminorm ext_scale]. rewrite vsub_zeros_r by auto. unfold quad_fun. rewrite const_vec_0, dot_zeros_l. cbn [ext_add]. f_equal. lra.
  - apply atom_exact; cbn; auto; try lra; [|split; auto|split; discriminate]. split; auto. split; [intros o Eo; discriminate|split; exact I].
Qed.
Lemma two_vec : forall v : vec, length v = 2%nat -> exists a b, v = [a; b].
Proof. intros [|a [|b [|]]] L; try discriminate. eauto. Qed.
Lemma ell1_two : forall a b, ell1 [a; b] = Rabs a + Rabs b.
Proof. intros. unfold ell1, vsum. cbn. lra. Qed.
Lemma nilpotent_good : good_design nilpotent 2 2 /\ reports_offset nilpotent.
Proof. assert (B : built nilpotent) by (apply b_matrix; [repeat constructor|discriminate]). split; [|cbn; auto]. assert (G := built_good _ B). split; [apply G|]. split; [apply G|]. auto. Qed.
Lemma nilpotent_map : forall a b, t_lin nilpotent [a; b] = [b; 0] /\ t_aff nilpotent [a; b] = [b; 0].
Proof. intros a b. cbn. unfold dot, vsum. cbn. split; (f_equal; [lra|f_equal; lra]). Qed.
Lemma far_good : good_smooth 2 far_loss.
Proof. split; [cbn; auto|]. split; [cbn; split; [lra|intros; apply sqn_nonneg]|]. split; [apply no_quad_good|]. intros; split; exact I. Qed.
Lemma far_func : forall a b, s_func far_loss [a; b] = (a * a + (b - 4) * (b - 4)) / 2.
Proof. intros. cbn [far_loss s_func]. rewrite quad_value. cbn. unfold dot, vsum. cbn. lra. Qed.
Definition stuck : admm := mk_admm (aug_of far_loss nilpotent 1) (of_atom l1_two) nilpotent 1 [0; 2] [1; 0] [2; 0].
Lemma stuck_state : state_of far_loss (of_atom l1_two) nilpotent 1 stuck.
Proof. split; [|cbn; auto]. exists [0; 0]. eexists. split; [unfold new_admm, squared_transform, composition, new_sum; cbn [rbind length const_vec repeat Nat.eqb negb]|].
  - match goal with |- context [existsb ?f ?l] => assert (B : existsb f l = false) by (cbn; destruct (Rlt_dec 1 0); [exfalso; lra|auto]); rewrite B end. cbn [rbind]. reflexivity.
  - cbn. auto. Qed.
Theorem admm_wrong : good_smooth 2 far_loss /\ exact_obj 2 (fun x => Fin (ell1 x)) (of_atom l1_two) /\ good_design nilpotent 2 2 /\ reports_offset nilpotent /\ state_of far_loss (of_atom l1_two) nilpotent 1 stuck /\
  (exists loops fuel, forall niter, admm_solve niter loops fuel plain_run 0 stuck = Ok stuck) /\
  split_objective (s_func far_loss) (fun x => Fin (ell1 x)) nilpotent (a_x stuck) = Fin 4 /\ split_objective (s_func far_loss) (fun x => Fin (ell1 x)) nilpotent [0; 3] = Fin (7 / 2).
Proof.
  destruct nilpotent_good as (GD & RO). assert (ST := stuck_state). split; [apply far_good|]. split; [apply l1_two_exact|]. split; [auto|]. split; [auto|]. split; [auto|]. split; [|split].
  - assert (AG := aug_good 2 far_loss nilpotent 1 far_good GD ltac:(lra)).
    assert (Fa : forall a b, s_func (aug_of far_loss nilpotent 1) [a; b] = (a * a + (b - 4) * (b - 4)) / 2 + b * b / 2). { intros a b. rewrite (aug_func 2) by auto. rewrite far_func. rewrite (proj1 (nilpotent_map a b)). unfold sqn, dot, vsum. cbn. lra. }
    assert (Ga : forall a b, s_grad (aug_of far_loss nilpotent 1) [a; b] = [a; 2 * b - 4]).
    { intros a b. cbn [aug_of s_grad map far_loss]. unfold quad_grad, vscale. destruct (Req_EM_T 1 1) as [_|N]; [|exfalso; apply N; auto]. destruct (Req_EM_T (1 * 1) 1) as [_|N]; [|exfalso; apply N; ring]. cbn. unfold dot, vsum, acc_grad. cbn. f_equal; [ring|f_equal; ring]. }
    assert (El : admm_linear stuck = Ok [0; 0]) by (unfold admm_linear; cbn; unfold dot, vsum; cbn; f_equal; f_equal; [ring|f_equal; ring]).
    assert (Gl : good_quad 2 (mk_iq 0 (FScal 0) (FVec [0; 0]) 0)) by (apply linear_good; auto).
    assert (Lip : forall q, lipschitz_map 2 (s_grad (set_quadratic (aug_of far_loss nilpotent 1) q)) 2).
    { intros q x y Lx Ly. rewrite !set_quadratic_grad. destruct (two_vec x Lx) as (a & b & ->). destruct (two_vec y Ly) as (c & d & ->). rewrite !Ga. apply norm_le_iff; [assert (P := norm_nonneg (vsub [a; b] [c; d])); lra|]. replace ((2 * norm (vsub [a; b] [c; d])) * (2 * norm (vsub [a; b] [c; d]))) with (4 * (norm (vsub [a; b] [c; d]) * norm (vsub [a; b] [c; d]))) by ring. rewrite norm_sq. unfold sqn, dot, vsum. cbn. pose proof (Rle_0_sqr (a - c)). unfold Rsqr in *. lra. }
    destruct (good_sum 2 no_quad _ (no_quad_good 2) Gl) as (nq & En & Gn & Dn).
    assert (X := smooth_exact 2 (set_quadratic (aug_of far_loss nilpotent 1) nq) 0 (set_quadratic_good 2 _ nq AG Gn)).
    destruct (fit_terminates 2 _ _ _ X plain_run (or_introl eq_refl) 2 ltac:(lra) (Lip nq) [0; 2] None false eq_refl) as (fuel0 & K); [apply (ex_nonsmooth _ _ _ _ X); reflexivity|cbn; lra|].
    destruct (K (max_of plain_run) fuel0 (le_n _) (le_n _)) as (s & Es). exists (max_of plain_run), fuel0.
    assert (E0 : exists A', admm_iter (max_of plain_run) fuel0 plain_run 0 stuck = Ok A').
    { unfold admm_iter, update_loss. rewrite El. cbn [rbind]. unfold smooth_solve. change (a_aug stuck) with (aug_of far_loss nilpotent 1). change (s_quadratic (aug_of far_loss nilpotent 1)) with no_quad. rewrite En. cbv zeta. change (a_x stuck) with [0; 2]. rewrite Es. cbn [snd rbind].
      match goal with |- context [update_atom ?B] => assert (SB : state_of far_loss (of_atom l1_two) nilpotent 1 B) end.
      { apply (state_x 2 far_loss (of_atom l1_two) nilpotent 1 GD stuck); auto. destruct (exact_fit 2 _ _ _ X plain_run (or_introl eq_refl) (max_of plain_run) fuel0 [0; 2] None false s) as (_ & _ & _ & Lx); auto; [apply (ex_nonsmooth _ _ _ _ X); reflexivity|cbn; lra]. }
      destruct (atom_update 2 far_loss (of_atom l1_two) nilpotent 1 _ l1_two_exact GD ltac:(lra) _ SB) as (z & Ez & _). rewrite Ez. cbn [rbind]. eauto. }
    destruct E0 as (A' & E0). assert (EA : A' = stuck).
    { destruct (iter_spec 2 far_loss (of_atom l1_two) nilpotent 1 _ far_good l1_two_exact GD RO ltac:(lra) _ _ plain_run 0 stuck A' ST eq_refl ltac:(cbn; lra) E0) as (SA' & Mz & Ey & lin & hh & C & s' & El' & _ & X' & G' & F' & Ex & O).
      assert (lin = [0; 0]) by (apply Ok_inj; congruence). subst lin.
      assert (MO : is_argmin 2 (objective (s_func (a_aug stuck)) hh) (a_x stuck)).
      { split; [auto|]. split; [rewrite O by auto; eauto|]. intros v Lv. rewrite !O by auto. destruct (two_vec v Lv) as (a & b & ->). cbn [a_aug stuck a_x ext_le]. rewrite !Fa. unfold dot, vsum. cbn. pose proof (Rle_0_sqr a). pose proof (Rle_0_sqr (b - 2)). unfold Rsqr in *. lra. }
      assert (Ex' : a_x A' = [0; 2]). { rewrite <- Ex. apply (fit_stays 2 _ hh C plain_run X' (or_introl eq_refl) (max_of plain_run) fuel0 [0; 2] None false s'); auto. cbn; lra. }
      specialize (Mz (fun _ => 0)). rewrite Ex' in *. assert (Ez : a_z A' = [2; 0]).
      { destruct Mz as (Lz & _ & M). destruct (two_vec _ Lz) as (a & b & Ez). rewrite Ez in *. specialize (M [2; 0] eq_refl). unfold lagrangian in M. cbn [ext_add ext_le] in M. rewrite (proj2 (nilpotent_map 0 2)), !ell1_two in M. cbn [stuck a_y] in M. unfold sqn, dot, vsum in M. cbn in M. rewrite Rabs_R0 in M. rewrite (Rabs_pos_eq 2) in M by lra.
        pose proof (Rle_abs a). pose proof (Rabs_pos b). assert (S : (2 - a) * (2 - a) + b * b <= 0) by lra. pose proof (Rle_0_sqr (2 - a)). pose proof (Rle_0_sqr b). unfold Rsqr in *. assert (S1 : (2 - a) * (2 - a) = 0) by lra. assert (S2 : b * b = 0) by lra. apply Rmult_integral in S1. apply Rmult_integral in S2. replace a with 2 by (destruct S1; lra). replace b with 0 by (destruct S2; lra). auto. }
      rewrite Ez in *. rewrite (proj2 (nilpotent_map 0 2)) in Ey. cbn in Ey. destruct (of_state 2 far_loss (of_atom l1_two) nilpotent 1 GD A' SA') as (B1 & B2 & B3 & B4 & _). destruct A'. cbn in *. subst. unfold stuck. f_equal. f_equal; [ring|f_equal; ring]. }
    subst A'. induction niter as [|niter IH]; [reflexivity|]. cbn [admm_solve]. rewrite E0. cbn [rbind]. exact IH.
  - unfold split_objective. cbn [stuck a_x]. rewrite (proj2 (nilpotent_map 0 2)), far_func, ell1_two, Rabs_R0, (Rabs_pos_eq 2) by lra. cbn [ext_add]. f_equal. lra.
  - unfold split_objective. rewrite (proj2 (nilpotent_map 0 3)), far_func, ell1_two, Rabs_R0, (Rabs_pos_eq 3) by lra. cbn [ext_add]. f_equal. lra.
Qed.
(** The quadratic of the loss takes no part. *)
Theorem admm_drops_quadratic : forall loss atom T rho coefs q A A', new_admm loss atom T rho coefs = Ok A -> new_admm (set_quadratic loss q) atom T rho coefs = Ok A' ->
  (forall u, s_func (a_aug A') u = s_func (a_aug A) u) /\ s_quadratic (a_aug A') = no_quad.
Proof.
  intros loss atom T rho coefs q A A' E E'. destruct (new_admm_ok _ _ _ _ _ _ E) as (_ & ->). destruct (new_admm_ok _ _ _ _ _ _ E') as (_ & ->). cbn [a_aug]. split; [|reflexivity]. intros u. unfold aug_of. cbn [s_func map]. rewrite set_quadratic_func. auto.
Qed.
(** |x|^2/2 + |x| on the line, at its solution: state, saddle point, symmetric map *)
Definition line_loss : satom := SQuad None 1 1 None no_quad.
Lemma line_case : let T := identity 1 in let A := mk_admm (aug_of line_loss T 1) (of_atom (l1_one 1)) T 1 [0] [0] [0] in
  good_smooth 1 line_loss /\ exact_obj 1 (fun x => Fin (1 * ell1 x)) (of_atom (l1_one 1)) /\ good_design T 1 1 /\ reports_offset T /\ self_adjoint T /\ state_of line_loss (of_atom (l1_one 1)) T 1 A /\ saddle 1 1 (s_func line_loss) (fun x => Fin (1 * ell1 x)) T (point A).
Proof.
  cbv zeta. split; [split; [cbn; auto|split; [cbn; split; [lra|intros; apply sqn_nonneg]|split; [apply no_quad_good|intros; split; exact I]]]|]. split; [apply l1_one_exact; lra|].
  assert (B : built (identity 1)) by constructor. assert (G := built_good _ B). split; [split; [apply G|split; [apply G|auto]]|]. split; [cbn; auto|]. split; [split; [auto|]; intros u v _ _; reflexivity|]. split.
  - split; [|cbn; auto]. exists [0]. eexists. split; [unfold new_admm, squared_transform, composition, new_sum; cbn [rbind length const_vec repeat Nat.eqb negb]|].
    + match goal with |- context [existsb ?f ?l] => assert (B' : existsb f l = false) by (cbn; destruct (Rlt_dec 1 0); [exfalso; lra|auto]); rewrite B' end. cbn [rbind]. reflexivity.
    + cbn. auto.
  - unfold point, saddle. cbn [a_x a_z a_y]. split; [reflexivity|]. split; [reflexivity|]. assert (F : forall a, s_func line_loss [a] = a * a / 2). { intros a. cbn [line_loss s_func]. rewrite quad_value. cbn. unfold dot, vsum. cbn. lra. } split.
    + split; [reflexivity|]. split; [eauto|]. intros v Lv. destruct (one_vec v Lv) as (a & ->). cbn [ext_le]. rewrite !F. change [0] with (zeros 1). rewrite !dot_zeros_l. pose proof (Rle_0_sqr a). unfold Rsqr in *. lra.
    + split; [reflexivity|]. split; [cbn [ext_add]; eauto|]. intros v Lv. destruct (one_vec v Lv) as (a & ->). cbn [ext_add ext_le]. rewrite !ell1_one. change [0] with (zeros 1). rewrite !dot_zeros_l, Rabs_R0. pose proof (Rabs_pos a). lra.
Qed.
