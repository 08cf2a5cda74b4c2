(** nesta on the line: an exact solver for x^2/2 - cx + |x|, and where the loop goes wrong. *)
From Coq Require Import Reals List Lra Lia Arith Bool.
From Verif Require Import M_affine SpecAffine P_affine M_loss M_smooth SpecSmooth P_smooth Vec Spec SpecConvex M_quad P_quad P_calc P_sep P_loss M_prox M_semi SpecAtom P_semi P_conj M_shift SpecBase P_shift M_afatom SpecCone M_cones P_cones M_fista SpecFista P_fista P_fista2 M_problem SpecProblem P_problem P_separable P_problem2 M_sconj SpecSconj P_sconj P_block3 P_path2 P_admm SpecNewton M_newton P_newton P_newton2 P_newton3 M_nesta SpecNesta P_nesta P_nesta2 P_nesta3.
Import ListNotations.
Local Open Scope R_scope.

Lemma back_to : forall x p : vec, length x = length p -> vadd x (vsub p x) = p.
Proof. unfold vadd, vsub. induction x as [|b x IH]; intros [|a p] L; cbn in *; try discriminate; auto. f_equal; [ring|apply IH; congruence]. Qed.
(** A minimizer is a fixed point of every proximal gradient step. *)
Lemma min_fixed : forall n f h C x L, exact_problem n f h C -> 0 < L -> is_argmin n (objective f h) x -> c_prox C L x (c_grad C x) = x.
Proof.
  intros n f h C x L EX HL (Lx & (r & Er) & M). destruct (ex_gradient _ _ _ _ EX x Lx) as (Lg & Dg). assert (A := ex_prox _ _ _ _ EX L x (c_grad C x) HL Lx Lg). set (p := c_prox C L x (c_grad C x)) in *. set (g := c_grad C x) in *.
  unfold objective in Er. destruct (h x) as [hx|] eqn:Ex; [|discriminate]. assert (A' := A). destruct A' as (Lp & (rp & Erp) & _). destruct (h p) as [hp|] eqn:Ep; [|discriminate].
  assert (V := prox_variational n h L x g p hp x hx (ex_convex_h _ _ _ _ EX) HL Lx Lg Lx A Ep Ex).
  set (hR := fun v => match h v with Fin r => r | PInf => 0 end).
  assert (Seg : forall t, 0 <= t <= 1 -> exists ht, h (vadd x (vscal t (vsub p x))) = Fin ht /\ ht <= (1 - t) * hx + t * hp). { intros t Ht. assert (K := ex_convex_h _ _ _ _ EX x p t hx hp Lx Lp Ht Ex Ep). unfold between in K. destruct (h (vadd x (vscal t (vsub p x)))) as [ht|]; cbn in K; [|contradiction]. exists ht. auto. }
  assert (E1 : vadd x (vsub p x) = p) by (apply back_to; congruence).
  assert (FO := first_order n f hR x g (vsub p x) (Logic.conj Lg Dg)). rewrite E1 in FO.
  assert (Q : 0 <= dot g (vsub p x) + hR p - hR x).
  { apply FO; auto with vl.
    - intros t Ht. destruct (Seg t Ht) as (ht & Et & Hl). unfold hR. rewrite Et, Ex, Ep. exact Hl.
    - intros t Ht. destruct (Seg t ltac:(lra)) as (ht & Et & Hl). assert (Lt : length (vadd x (vscal t (vsub p x))) = n) by auto with vl. specialize (M _ Lt). unfold objective in M. rewrite ?Ex, Et in M. cbn in M. unfold hR. rewrite Et, Ex. exact M. }
  unfold hR in Q. rewrite Ex, Ep in Q. apply vsub_eq_zero; [vl n|]. pose proof (sqn_nonneg (vsub p x)). assert (dot (vsub p x) (vsub p x) = sqn (vsub p x)) by reflexivity. rewrite !dot_sub_r in * by vl n. rewrite !dot_sub_l in * by vl n. rewrite sqn_sub in * by vl n. rewrite (dot_comm x p) in *. unfold sqn in *. nra.
Qed.
(** ** The conjugate of |x| *)
Definition unit_box (u : vec) : ext := if Rle_dec (Rabs (hd 0 u)) 1 then Fin 0 else PInf.
Definition abs_fun (x : vec) : ext := atom_doc 1 (l1_one 1) (Lagrange 1) x.
Lemma abs_at : forall t, abs_fun [t] = Fin (Rabs t).
Proof. intros t. unfold abs_fun, atom_doc, doc_objective, atom_off. cbn [a_offset a_quadratic l1_one klass off_vec no_quad coef center linear_term constant_term fbcast mode_fun doc_seminorm ext_scale]. rewrite vsub_zeros_r by auto. unfold quad_fun. rewrite const_vec_0, dot_zeros_l. rewrite ell1_one. cbn [ext_add]. f_equal. lra. Qed.
Lemma dot_one : forall a b, dot [a] [b] = a * b.
Proof. intros. unfold dot, vsum. cbn. ring. Qed.
Lemma abs_conjugates : conjugates 1 abs_fun unit_box.
Proof.
  split; intros u Lu; destruct (one_vec u Lu) as (a & ->).
  - unfold unit_box. cbn [hd]. destruct (Rle_dec (Rabs a) 1) as [H|H].
    + split.
      * intros x r Lx Ex. destruct (one_vec x Lx) as (b & ->). rewrite abs_at in Ex. injection Ex as <-. rewrite dot_one. pose proof (Rle_abs (a * b)). rewrite Rabs_mult in H0. pose proof (Rabs_pos b). nra.
      * intros e He. exists [0], 0. split; [auto|]. split; [rewrite abs_at, Rabs_R0; auto|]. rewrite dot_one. lra.
    + intros M. apply Rnot_le_lt in H. set (t := (Rabs M + 1) / (Rabs a - 1)). assert (Ht : 0 < t) by (apply Rdiv_lt_0_compat; [pose proof (Rabs_pos M); lra|lra]). assert (Et : t * (Rabs a - 1) = Rabs M + 1) by (unfold t; field; lra).
      exists [if Rle_dec 0 a then t else - t], t. split; [auto|]. rewrite abs_at, dot_one. pose proof (Rle_abs M). destruct (Rle_dec 0 a) as [Ha|Ha].
      * split; [rewrite Rabs_pos_eq by lra; auto|]. rewrite (Rabs_pos_eq a) in Et by lra. lra.
      * split; [rewrite Rabs_Ropp, Rabs_pos_eq by lra; auto|]. rewrite (Rabs_left a) in Et by lra. lra.
  - rewrite abs_at. split.
    + intros x r Lx Ex. destruct (one_vec x Lx) as (b & ->). unfold unit_box in Ex. cbn [hd] in Ex. destruct (Rle_dec (Rabs b) 1); [|discriminate]. injection Ex as <-. rewrite dot_one. pose proof (Rle_abs (a * b)). rewrite Rabs_mult in H. pose proof (Rabs_pos a). nra.
    + intros e He. exists [if Rle_dec 0 a then 1 else -1], 0. split; [auto|]. unfold unit_box. cbn [hd]. rewrite dot_one. destruct (Rle_dec 0 a) as [Ha|Ha].
      * rewrite (Rabs_pos_eq 1) by lra. destruct (Rle_dec 1 1); [|lra]. split; auto. rewrite Rabs_pos_eq; lra.
      * rewrite (Rabs_left (-1)) by lra. destruct (Rle_dec (- -1) 1); [|lra]. split; auto. rewrite Rabs_left; lra.
Qed.
(** ** The call *)
Definition tilt (c : R) : iq := mk_iq 0 (FScal 0) (FVec [- c]) 0.
Definition line_args (c : R) (eps : list R) (max_iters : nat) (coef_tol : R) (min_iters : nat) : nesta_args :=
  mk_nesta (Some (half_sq no_quad)) None [0] (SrcAtom (l1_one 1)) (Some eps) 0 max_iters min_iters coef_tol None None true (Some (tilt c)).
Definition line_fun (c : R) (x : vec) : ext := Fin (hd 0 x * hd 0 x / 2 - c * hd 0 x).
Definition clip (t : R) : R := Rmax (-1) (Rmin 1 t).
Lemma line_for : forall c eps mx ct mi, nesta_for (line_args c eps mx ct mi) 1 (identity_map 1) (line_fun c) abs_fun.
Proof.
  intros c eps mx ct mi. split; cbn [na_source line_args na_loss na_quadratic]; auto.
  - apply SF_atom; cbn; auto; try lra; [|split; auto]. split; auto. split; [intros o Eo; discriminate|split; exact Logic.I].
  - intros a E. injection E as <-. apply half_good. apply no_quad_good.
  - intros q E. injection E as <-. repeat split; cbn; auto; lra.
  - exists (fun _ => Fin 0). split; [cbn; auto|]. intros x Lx. destruct (one_vec x Lx) as (t & ->). unfold line_fun, plus_quad, quad_or_zero. cbn [ext_add hd]. f_equal.
    rewrite <- (P_smooth.smooth_value (half_sq no_quad) 1 [t]); [|apply (half_good _ (no_quad_good 1))|auto|cbn; auto]. rewrite half_func. unfold q_denot, quad_fun, tilt, sqn, dot, vsum. cbn. lra.
Qed.
Lemma clip_range : forall t, -1 <= clip t <= 1.
Proof. intros t. unfold clip. split; [apply Rmax_l|]. apply Rmax_lub; [lra|apply Rmin_l]. Qed.
Lemma clip_cases : forall t, (t <= -1 /\ clip t = -1) \/ (-1 <= t <= 1 /\ clip t = t) \/ (1 <= t /\ clip t = 1).
Proof.
  intros t. unfold clip. destruct (Rle_dec t (-1)); [left; rewrite Rmin_right, Rmax_left by lra; auto|]. destruct (Rle_dec 1 t); [right; right; rewrite Rmin_left, Rmax_right by lra; auto|]. right; left. rewrite Rmin_right, Rmax_right by lra. split; lra.
Qed.
(** The maximizer of x u - eps/2 (u - y)^2 over |u| <= 1 *)
Lemma clip_max : forall eps y x u, 0 < eps -> is_argmin 1 (fun w => ext_add (regularized unit_box eps [y] w) (Fin (- dot [x] w))) u -> u = [clip (x / eps + y)].
Proof.
  intros eps y x u HE (Lu & (r & Er) & M). destruct (one_vec u Lu) as (a & ->). unfold regularized, unit_box in Er. cbn [hd] in Er. destruct (Rle_dec (Rabs a) 1) as [Ha|]; [|discriminate]. clear r Er. specialize (M [clip (x / eps + y)] eq_refl). cbv beta in M. unfold regularized, unit_box in M. cbn [hd] in M. destruct (Rle_dec (Rabs a) 1); [|lra]. set (t := x / eps + y) in *. assert (Ex : x = eps * (t - y)) by (unfold t; field; lra).
  assert (R := clip_range t). destruct (Rle_dec (Rabs (clip t)) 1) as [Hc|Hc]; [|exfalso; apply Hc; apply Rabs_le; lra]. cbn [ext_add ext_le] in M. rewrite !dot_one in M. unfold sqn, dot, vsum in M. cbn in M. assert (Ha' : -1 <= a <= 1) by (split; [pose proof (Rle_abs (- a)); rewrite Rabs_Ropp in *; lra|pose proof (Rle_abs a); lra]). f_equal. rewrite Ex in M. clear Ex.
  assert (Q : (a - t) * (a - t) <= (clip t - t) * (clip t - t)) by (apply Rmult_le_reg_l with (eps / 2); lra).
  destruct (clip_cases t) as [(H1 & H2)|[(H1 & H2)|(H1 & H2)]]; rewrite H2 in *; nra.
Qed.

Lemma attains_argmin : forall m K f g v, attains m K f g -> length v = m -> is_argmin m (fun u => ext_add (K u) (Fin (- dot v u))) (g v).
Proof. intros m K f g v AT Lv. destruct (AT v Lv) as ((Up & _) & Lg & Eg & _). split; [exact Lg|]. split; [rewrite Eg; cbn; eauto|]. intros w Lw. rewrite Eg. destruct (K w) as [rw|] eqn:Ew; [|cbn; auto]. cbn [ext_add ext_le]. specialize (Up w rw Lw Ew). lra. Qed.
Lemma clip_balance : forall eps y c, 0 < eps -> let u := clip ((c + eps * y) / (1 + eps)) in clip ((c - u) / eps + y) = u.
Proof.
  intros eps y c HE u. set (t := (c + eps * y) / (1 + eps)) in *. assert (Et : t * (1 + eps) = c + eps * y) by (unfold t; field; lra). set (z := (c - u) / eps + y). assert (Ez : z * eps = t * (1 + eps) - u) by (unfold z; rewrite Et; field; lra).
  destruct (clip_cases t) as [(H1 & H2)|[(H1 & H2)|(H1 & H2)]]; fold u in H2; destruct (clip_cases z) as [(H3 & H4)|[(H3 & H4)|(H3 & H4)]]; rewrite H4; rewrite H2 in *; nra.
Qed.
Lemma clip_unique : forall eps y c u, 0 < eps -> u = clip ((c - u) / eps + y) -> u = clip ((c + eps * y) / (1 + eps)).
Proof.
  intros eps y c u HE Hu. set (t := (c + eps * y) / (1 + eps)). assert (Et : t * (1 + eps) = c + eps * y) by (unfold t; field; lra). set (z := (c - u) / eps + y) in *. assert (Ez : z * eps = t * (1 + eps) - u) by (unfold z; rewrite Et; field; lra).
  destruct (clip_cases t) as [(H1 & H2)|[(H1 & H2)|(H1 & H2)]]; destruct (clip_cases z) as [(H3 & H4)|[(H3 & H4)|(H3 & H4)]]; rewrite H2; rewrite H4 in Hu; clearbody z t; nra.
Qed.
(** An exact solver: it reads the center off the problem, and knows eps as its tolerance. *)
Definition line_run (c : R) : solver := fun _ D _ tol =>
  let w := hd 0 (c_grad D [0]) in
  let y := w + w * sqrt (-2 * (match c_smooth D [0] with Fin s => s | PInf => 0 end) / tol) in
  let x := [c - clip ((c + tol * y) / (1 + tol))] in Ok (mk_answer x x x).
Lemma line_solves : forall c eps mx ct mi, solves_nesta (line_run c) (line_args c eps mx ct mi) 1 1.
Proof.
  intros c epsl mx ct mi idx eps y p start f' h' HE Ly Ep EX. set (N := line_args c epsl mx ct mi) in *. destruct (one_vec y Ly) as (b & ->). change (mk_iq eps (FVec [b]) (FScal 0) 0) with (squad eps [b]) in Ep. change (na_source N) with (SrcAtom (l1_one 1)) in Ep.
  assert (NF := line_for c epsl mx ct mi). fold N in NF. destruct (nesta_exact N 1 (identity_map 1) _ _ unit_box eps [b] NF abs_conjugates HE eq_refl) as (p2 & f2 & g2 & fs & hs & Ep2 & SC & Ei & EX2 & EO). change (na_source N) with (SrcAtom (l1_one 1)) in Ep2. assert (p2 = p) by (apply Ok_inj; congruence). subst p2.
  destruct (smoothed_spec (SrcAtom (l1_one 1)) (identity_map 1) abs_fun unit_box eps [b] (nf_source _ _ _ _ _ NF) abs_conjugates HE eq_refl) as (p2 & f & g & Ep3 & SC3 & Ev). assert (p2 = p) by (apply Ok_inj; congruence). subst p2. cbn [t_in identity_map] in Ev.
  assert (Gp : forall x, sm_inner p [x] = [clip (x / eps + b)]).
  { intros x. rewrite Ei by auto. cbn [identity_map t_lin]. apply clip_max; auto. eapply argmin_ext; [|apply (attains_argmin 1 (plus_quad 1 unit_box (squad eps [b])) f2 g2 [x]); [apply SC|auto]]. intros z Lz. cbv beta. rewrite squad_reg. reflexivity. }
  assert (F0 : sm_func p [0] = - (eps / 2 * ((clip b - b) * (clip b - b)))).
  { destruct (Ev [0] eq_refl) as (E1 & E2 & _). rewrite E1. cbn [identity_map t_lin] in *. destruct SC3 as (AT & _). destruct (AT [0] eq_refl) as (_ & _ & Eg & _). rewrite <- E2, Gp in Eg. replace (0 / eps + b) with b in Eg by (field; lra). rewrite squad_reg in Eg. unfold regularized, unit_box in Eg. cbn [hd] in Eg. destruct (Rle_dec (Rabs (clip b)) 1); [|discriminate]. cbn [ext_add] in Eg. injection Eg as Eg. unfold sqn, dot, vsum in Eg. cbn in Eg. lra. }
  assert (G0 : c_grad (nesta_problem N p) [0] = [clip b]).
  { cbn [nesta_problem c_grad]. unfold nesta_grad. change (na_loss N) with (Some (half_sq no_quad)). destruct (Ev [0] eq_refl) as (_ & E2 & E3). rewrite E3, <- E2, Gp. cbn [identity_map t_adj]. replace (0 / eps + b) with b by (field; lra). rewrite half_grad by auto. change (nesta_shape N) with 1%nat. rewrite acc_two by auto. unfold vadd. cbn. f_equal. ring. }
  assert (S0 : c_smooth (nesta_problem N p) [0] = Fin (- (eps / 2 * ((clip b - b) * (clip b - b))))). { cbn [nesta_problem c_smooth]. unfold nesta_func. change (na_loss N) with (Some (half_sq no_quad)). rewrite F0, half_func. rewrite acc_func_dot. unfold dot, vmul, vsum. cbn. f_equal. field. }
  change (na_tol N) with 0. rewrite Rmax_left by lra. unfold line_run. rewrite G0, S0. cbn [hd].
  replace (-2 * - (eps / 2 * ((clip b - b) * (clip b - b))) / eps) with ((clip b - b) * (clip b - b)) by (field; lra).
  assert (Yb : clip b + clip b * sqrt ((clip b - b) * (clip b - b)) = b).
  { change ((clip b - b) * (clip b - b)) with (Rsqr (clip b - b)). rewrite sqrt_Rsqr_abs. destruct (clip_cases b) as [(H1 & H2)|[(H1 & H2)|(H1 & H2)]]; rewrite H2; [rewrite Rabs_pos_eq by lra; ring|rewrite Rminus_diag_eq by auto; rewrite Rabs_R0; ring|rewrite Rabs_minus_sym, Rabs_pos_eq by lra; ring]. }
  rewrite Yb. set (u := clip ((c + eps * b) / (1 + eps))). eexists. split; [reflexivity|]. cbn [an_coefs an_at]. split; [|reflexivity].
  assert (Bal := clip_balance eps b c HE). cbv zeta in Bal. fold u in Bal. assert (Gx := Gp (c - u)). rewrite Bal in Gx. rewrite Ei in Gx by auto. cbn [identity_map t_lin] in Gx.
  assert (M : is_argmin 1 (objective fs hs) [c - u]).
  { split; auto. split; [rewrite EO by auto; unfold line_fun; cbn; eauto|]. intros z Lz. rewrite !EO by auto. destruct (one_vec z Lz) as (s & ->). unfold line_fun. cbn [hd ext_add ext_le identity_map t_lin]. destruct SC as (_ & Cv & Gd & _). specialize (Gd [c - u] eq_refl). cbn [identity_map t_out] in Cv, Gd. rewrite Gx in Gd. assert (Tg := convex_tangent 1 f2 [c - u] [u] [s] Cv Gd eq_refl eq_refl). unfold vsub in Tg. cbn [vzip] in Tg. rewrite dot_one in Tg. pose proof (Rle_0_sqr (s - (c - u))) as Sq. unfold Rsqr in Sq. lra. }
  apply (fixed_is_min 1 f' h' _ EX [c - u] 1); auto; [lra|]. apply (min_fixed 1 fs hs); auto. lra.
Qed.
Lemma line_saddle : forall c, saddle_point 1 (identity_map 1) (line_fun c) unit_box [c - clip c] [clip c].
Proof.
  intros c. assert (R := clip_range c). split; (split; [auto|]; split; [|intros z Lz; destruct (one_vec z Lz) as (s & ->)]).
  - unfold line_fun. cbn. eauto.
  - unfold line_fun. cbn [ext_add ext_le hd identity_map t_lin]. rewrite !dot_one. pose proof (Rle_0_sqr (s - (c - clip c))). unfold Rsqr in *. lra.
  - unfold unit_box. cbn [hd]. destruct (Rle_dec (Rabs (clip c)) 1) as [_|K]; [cbn; eauto|exfalso; apply K, Rabs_le; lra].
  - unfold unit_box. cbn [hd]. destruct (Rle_dec (Rabs (clip c)) 1) as [_|K]; [|exfalso; apply K, Rabs_le; lra]. destruct (Rle_dec (Rabs s) 1) as [Hs|]; [|cbn; auto]. cbn [ext_add ext_le identity_map t_lin]. rewrite !dot_one. assert (-1 <= s <= 1) by (split; [pose proof (Rle_abs (- s)); rewrite Rabs_Ropp in *; lra|pose proof (Rle_abs s); lra]). destruct (clip_cases c) as [(H1 & H2)|[(H1 & H2)|(H1 & H2)]]; rewrite H2; nra.
Qed.
Lemma abs_lipschitz : lipschitz_fun 1 abs_fun 1.
Proof.
  exists (fun x => Rabs (hd 0 x)). split; [intros v Lv; destruct (one_vec v Lv) as (a & ->); apply abs_at|]. intros v w Lv Lw. destruct (one_vec v Lv) as (a & ->). destruct (one_vec w Lw) as (b & ->). cbn [hd].
  assert (E : norm (vsub [a] [b]) = Rabs (a - b)) by (unfold norm, sqn, dot, vsum; cbn; replace ((a - b) * (a - b) + 0) with (Rsqr (a - b)) by (unfold Rsqr; ring); apply sqrt_Rsqr_abs). rewrite E. pose proof (Rabs_triang b (a - b)). replace (b + (a - b)) with a in H by ring. lra.
Qed.
(** What an exact round does on the line *)
Lemma line_round : forall c r y, exact_round 1 (identity_map 1) (line_fun c) unit_box r -> 0 < r_eps r -> r_center r = [y] -> r_dual r = [clip ((c + r_eps r * y) / (1 + r_eps r))].
Proof.
  intros c r y ER HE Ec. assert (CG : convex_ext 1 unit_box) by (apply (fenchel_convex 1 abs_fun); apply abs_conjugates). assert (CP : convex_ext 1 (line_fun c)).
  { intros x z t a b Lx Lz Ht Ea Eb. destruct (one_vec x Lx) as (x1 & ->). destruct (one_vec z Lz) as (z1 & ->). unfold line_fun in *. cbn [hd] in *. injection Ea as <-. injection Eb as <-. unfold between, vadd, vscal, vsub. cbn. pose proof (Rle_0_sqr (z1 - x1)). unfold Rsqr in *. assert (0 <= t * (1 - t) * ((z1 - x1) * (z1 - x1))) by (apply Rmult_le_pos; [apply Rmult_le_pos; lra|auto]). lra. }
  destruct (round_parts 1 (identity_map 1) (line_fun c) unit_box r ER) as (Lx & Lu & _ & _). destruct (one_vec _ Lx) as (x & Ex). destruct (one_vec _ Lu) as (u & Eu).
  assert (X : x = c - u). { assert (K := round_primal 1 (identity_map 1) (line_fun c) unit_box (identity_adjoint 1) eq_refl CP CG r (x * x / 2 - c * x) [c - u] ((c - u) * (c - u) / 2 - c * (c - u)) ER HE ltac:(rewrite Ec; auto) eq_refl). rewrite Ex, Eu in K. specialize (K eq_refl eq_refl). cbn [identity_map t_lin] in K. rewrite !dot_one in K. nra. }
  destruct ER as (S & HS & MX & MU). rewrite Ec, Ex in MU. cbn [identity_map t_lin t_out] in MU. apply clip_max in MU; auto. rewrite Eu in *. f_equal. injection MU as MU. rewrite X in MU. apply clip_unique; auto.
Qed.
(** Two rounds allowed once: the returned dual point is outside |u| <= 1, and max_iters does not count. *)
Theorem line_two : exists o, nesta (line_run (13 / 10)) (line_args (13 / 10) [1; 1] 1 0 0) = Ok o /\ length (o_rounds o) = 2%nat /\ o_warned o = true /\ o_broke o = false /\
  o_dual o = [169 / 160] /\ unit_box (o_dual o) = PInf.
Proof.
  set (N := line_args (13 / 10) [1; 1] 1 0 0). assert (NF := line_for (13 / 10) [1; 1] 1 0 0). fold N in NF.
  destruct (nesta_ran (line_run (13 / 10)) N 1 (identity_map 1) _ _ unit_box NF abs_conjugates (line_solves _ _ _ _ _) [0]) as (o & Eo & [R1 R2 R3 R4 (rs & r & E1 & E2 & E3 & E4 & E5)]); [discriminate|cbn; intros e [<-|[<-|[]]]; lra|reflexivity|].
  exists o. split; [exact Eo|]. destruct (E4 eq_refl) as (_ & Sb). assert (Bf : o_broke o = false). { destruct (o_broke o); auto. exfalso. destruct Sb as [Sb _]. destruct (Sb eq_refl) as (K & _). change (na_coef_tol N) with 0 in K. pose proof (norm_nonneg (vsub (r_center r) (r_dual r))). lra. }
  rewrite Bf in *. destruct E3 as (L2 & Ed). change (length (schedule (na_epsilon N) (na_max_iters N))) with 2%nat in L2. split; [exact L2|]. destruct (o_rounds o) as [|r0 [|r1 [|]]] eqn:Er; try discriminate. cbn [length firstn map] in R3. injection R3 as Ee0 Ee1. destruct R2 as (I0 & C0 & I1 & C1 & _). apply Forall_cons_iff in R1. destruct R1 as (X0 & R1). apply Forall_cons_iff in R1. destruct R1 as (X1 & _).
  assert (D0 := line_round _ r0 0 X0 ltac:(rewrite Ee0; lra) C0). rewrite Ee0 in D0. assert (K0 : clip ((13 / 10 + 1 * 0) / (1 + 1)) = 13 / 20) by (destruct (clip_cases ((13 / 10 + 1 * 0) / (1 + 1))) as [(H1 & H2)|[(H1 & H2)|(H1 & H2)]]; lra). rewrite K0 in D0.
  rewrite D0 in C1. cbn in C1. replace (0 + (1 + 0 / (0 + 3)) * (13 / 20 - 0)) with (13 / 20) in C1 by field.
  assert (D1 := line_round _ r1 (13 / 20) X1 ltac:(rewrite Ee1; lra) C1). rewrite Ee1 in D1. assert (K1 : clip ((13 / 10 + 1 * (13 / 20)) / (1 + 1)) = 39 / 40) by (destruct (clip_cases ((13 / 10 + 1 * (13 / 20)) / (1 + 1))) as [(H1 & H2)|[(H1 & H2)|(H1 & H2)]]; lra). rewrite K1 in D1.
  assert (Ev : o_dual o = [169 / 160]). { rewrite Ed. cbn [center_after]. rewrite D0, D1. cbn. f_equal. field. }
  split; [apply E5; exists r0; split; [rewrite <- E1; left; auto|rewrite I0; reflexivity]|]. split; [reflexivity|]. split; [exact Ev|]. rewrite Ev. unfold unit_box. cbn [hd]. destruct (Rle_dec _ 1) as [K|]; auto. exfalso. rewrite Rabs_pos_eq in K; lra.
Qed.
(** The loop over no eps *)
Theorem nesta_empty : forall run N m, src_dual (na_source N) = Ok m -> schedule (na_epsilon N) (na_max_iters N) = [] -> nesta run N = Err NameError.
Proof. intros run N m E1 E2. unfold nesta. rewrite E1, E2. reflexivity. Qed.
