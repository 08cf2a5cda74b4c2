(** The loops of nesta: with an exact solver every round is exact. *)
From Coq Require Import Reals List Lra Lia Arith Bool.
From Verif Require Import M_affine SpecAffine P_affine M_loss M_smooth SpecSmooth P_smooth Vec Spec SpecConvex M_quad P_quad P_calc P_sep P_loss M_prox M_semi SpecAtom P_semi P_conj M_shift SpecBase P_shift M_afatom SpecCone M_cones P_cones M_fista SpecFista M_problem SpecProblem P_problem M_sconj SpecSconj P_sconj P_block3 P_path2 P_admm M_nesta SpecNesta P_nesta.
Import ListNotations.
Local Open Scope R_scope.

Definition squad (eps : R) (y : vec) : iq := mk_iq eps (FVec y) (FScal 0) 0.
Lemma squad_ok : forall m eps y, length y = m -> q_shape m (squad eps y) /\ center_ok m (squad eps y).
Proof. intros m eps y L. repeat split; cbn; auto. Qed.
Lemma dot_const0 : forall n (x : vec), dot (fbcast n (FScal 0)) x = 0.
Proof. intros n x. cbn [fbcast]. change (const_vec n 0) with (zeros n). apply dot_zeros_l. Qed.
Lemma squad_reg : forall m G eps y u, plus_quad m G (squad eps y) u = regularized G eps y u.
Proof. intros m G eps y u. unfold plus_quad, regularized. destruct (G u); cbn [ext_add]; auto. f_equal. f_equal. unfold q_denot, quad_fun. cbn [coef center linear_term constant_term squad]. rewrite dot_const0. cbn [fbcast]. ring. Qed.
Lemma conjugates_unique : forall m h G G', conjugates m h G -> (forall u, length u = m -> is_fenchel m h u (G' u)) -> forall u, length u = m -> G' u = G u.
Proof. intros m h G G' [A _] B u Lu. eapply fenchel_unique; [apply B; auto|apply A; auto]. Qed.
Lemma aa_of_atom : forall a T md sq C, atom_wf (t_out T) a -> mode_ok md -> atom_mode a md -> coef (a_quadratic a) = 0 -> q_shape (t_out T) sq -> center_ok (t_out T) sq -> 0 < coef sq ->
  atom_smoothed a sq = Ok C -> aa_smoothed (mk_affine_atom a T) sq = Ok (C, T).
Proof.
  intros a T m sq C W Hm Em Hc Ss Cs HL EC. set (n := t_out T) in *. unfold atom_smoothed in EC. destruct (Req_EM_T (coef (a_quadratic a)) 0); [|tauto]. unfold aa_smoothed, aa_dual. cbn [aa_atom aa_map]. rewrite (copy_correct n a m W Hm Em). cbn [rbind].
  assert (Sh : shape a = n) by apply W. replace (mk_atom (klass a) (t_out T) (a_lagrange a) (a_bound a) (a_offset a) (a_quadratic a)) with a by (fold n; rewrite <- Sh; destruct a; reflexivity).
  destruct (conj_form n a m W Hm Em Hc) as (d & Ed & Ek & Emd & Wd & _ & _ & Ecd & _). rewrite Ed in *. cbn [rbind fst snd] in *. rewrite (copy_correct n d (dual_mode m)) in EC by (auto; destruct m; auto). cbn [rbind] in EC.
  destruct (Req_EM_T (coef sq) 0); [discriminate|]. assert (Cd := conj_center a d n Ed). assert (Sd : q_shape n (a_quadratic d)) by apply Wd. destruct (add_quad n sq (a_quadratic d) Ss Sd Cs Cd) as (t & Et & St & Ct & Kt & _ & Dt).
  rewrite Et in *. cbn [rbind] in *. destruct (Req_EM_T (coef t) 0); [exfalso; lra|]. rewrite EC. reflexivity.
Qed.
Lemma identity_adjoint : forall n, true_adjoint (identity_map n).
Proof. intros n. repeat split; cbn; auto. Qed.
Lemma stands_map : forall s T h, stands_for s T h -> true_adjoint T /\ (forall x, length x = t_in T -> t_aff T x = t_lin T x) /\ (exists Lo, 0 <= Lo /\ opnorm_bound T Lo) /\ src_dual s = Ok (t_out T).
Proof.
  intros s T h S. destruct S as [n a md Hn W Hm Em Hc V|n c Hd N1 N2 W Hc|A md Hn W Hm Em Hc V TA TE TO].
  - split; [apply identity_adjoint|]. split; [auto|]. split; [exists 1; split; [lra|intros x Lx; rewrite Rmult_1_l; apply Rle_refl]|]. cbn [src_dual]. destruct (Req_EM_T _ 0); [|tauto]. destruct (conj_form n a md W Hm Em Hc) as (d & Ed & _). rewrite Ed. cbn. f_equal. apply W.
  - split; [apply identity_adjoint|]. split; [auto|]. split; [exists 1; split; [lra|intros x Lx; rewrite Rmult_1_l; apply Rle_refl]|]. cbn. f_equal. apply W.
  - split; [auto|]. split; [auto|]. split; [auto|]. destruct A as [a T]. cbn [aa_map aa_atom] in *. cbn [src_dual]. unfold aa_dual. cbn [aa_map aa_atom]. rewrite (copy_correct (t_out T) a md W Hm Em). cbn [rbind].
    assert (Sh : shape a = t_out T) by apply W. replace (mk_atom (klass a) (t_out T) (a_lagrange a) (a_bound a) (a_offset a) (a_quadratic a)) with a by (rewrite <- Sh; destruct a; reflexivity).
    destruct (conj_form (t_out T) a md W Hm Em Hc) as (d & Ed & _). rewrite Ed. reflexivity.
Qed.
Definition nothing (n : nat) : iq := squad 1 (zeros n).
Lemma stands_conjugate : forall s T h, stands_for s T h -> exists G, conjugates (t_out T) h G.
Proof.
  intros s T h S. destruct S as [n a md Hn W Hm Em Hc V|n c Hd N1 N2 W Hc|A md Hn W Hm Em Hc V TA TE TO].
  - destruct (squad_ok n 1 (zeros n) ltac:(apply zeros_length)) as (S1 & S2). destruct (atom_smoothed_spec n a md (nothing n) Hn W Hm Em Hc V S1 S2) as (C & G & f & g & _ & _ & F1 & F2 & _); [cbn; lra|]. exists G. split; auto.
  - destruct (squad_ok n 1 (zeros n) ltac:(apply zeros_length)) as (S1 & S2). destruct (cone_smoothed_spec n c (nothing n) Hd N1 N2 W Hc S1 S2) as (C & G & f & g & _ & _ & F1 & F2 & _); [cbn; lra|]. exists G. split; auto.
  - destruct (squad_ok (t_out (aa_map A)) 1 (zeros (t_out (aa_map A))) ltac:(apply zeros_length)) as (S1 & S2). destruct (atom_smoothed_spec (t_out (aa_map A)) (aa_atom A) md (nothing (t_out (aa_map A))) Hn W Hm Em Hc V S1 S2) as (C & G & f & g & _ & _ & F1 & F2 & _); [cbn; lra|]. exists G. split; auto.
Qed.
(** The smoothed object: value, stored gradient, gradient. *)
Lemma smoothed_spec : forall s T h G eps y, stands_for s T h -> conjugates (t_out T) h G -> 0 < eps -> length y = t_out T ->
  exists p f g, src_smoothed s (squad eps y) = Ok p /\ smooth_conjugate_of (t_out T) (plus_quad (t_out T) G (squad eps y)) (1 / eps) f g /\
    forall x, length x = t_in T -> sm_func p x = f (t_lin T x) /\ sm_inner p x = g (t_lin T x) /\ sm_grad p x = t_adj T (g (t_lin T x)).
Proof.
  intros s T h G eps y S HC HE Ly. destruct S as [n a md Hn W Hm Em Hc V|n c Hd N1 N2 W Hc|A md Hn W Hm Em Hc V TA TE TO].
  - destruct (squad_ok n eps y Ly) as (S1 & S2). destruct (atom_smoothed_spec n a md (squad eps y) Hn W Hm Em Hc V S1 S2) as (C & G' & f & g & E & _ & F1 & F2 & Ev & SC); [exact HE|]. exists (C, None), f, g. cbn [src_smoothed]. rewrite E. split; [reflexivity|]. split.
    + eapply attains_ext; [|exact SC]. intros u Lu. unfold plus_quad. rewrite (conjugates_unique _ _ _ _ HC F1 u Lu). reflexivity.
    + intros x Lx. cbn [t_in identity_map] in Lx. destruct (Ev x Lx) as (E1 & E2 & _). unfold sm_func, sm_inner, sm_grad, sm_inner, sm_point. cbn [fst snd identity_map t_lin t_adj]. rewrite E1, E2. auto.
  - destruct (squad_ok n eps y Ly) as (S1 & S2). destruct (cone_smoothed_spec n c (squad eps y) Hd N1 N2 W Hc S1 S2) as (C & G' & f & g & E & _ & F1 & F2 & Ev & SC); [exact HE|]. exists (C, None), f, g. cbn [src_smoothed]. rewrite E. split; [reflexivity|]. split.
    + eapply attains_ext; [|exact SC]. intros u Lu. unfold plus_quad. rewrite (conjugates_unique _ _ _ _ HC F1 u Lu). reflexivity.
    + intros x Lx. cbn [t_in identity_map] in Lx. destruct (Ev x Lx) as (E1 & E2 & _). unfold sm_func, sm_inner, sm_grad, sm_inner, sm_point. cbn [fst snd identity_map t_lin t_adj]. rewrite E1, E2. auto.
  - destruct A as [a T]. cbn [aa_map aa_atom] in *. destruct (squad_ok (t_out T) eps y Ly) as (S1 & S2). destruct (atom_smoothed_spec (t_out T) a md (squad eps y) Hn W Hm Em Hc V S1 S2) as (C & G' & f & g & E & _ & F1 & F2 & Ev & SC); [exact HE|].
    exists (C, Some T), f, g. cbn [src_smoothed]. rewrite (aa_of_atom a T md (squad eps y) C) by auto. split; [reflexivity|]. split.
    + eapply attains_ext; [|exact SC]. intros u Lu. unfold plus_quad. rewrite (conjugates_unique _ _ _ _ HC F1 u Lu). reflexivity.
    + intros x Lx. assert (Lt : length (t_lin T x) = t_out T) by (apply TA; auto). destruct (Ev _ Lt) as (E1 & E2 & _). unfold sm_func, sm_inner, sm_grad, sm_inner, sm_point. cbn [fst snd]. rewrite TE by auto. rewrite E1, E2. auto.
Qed.
(** ** The problem a round poses *)
Lemma no_quad_ok : forall n, q_shape n no_quad /\ center_ok n no_quad.
Proof. apply zero_quad_ok. Qed.
Lemma no_quad_func : forall n x, length x = n -> q_func no_quad x = 0.
Proof. intros n x L. destruct (no_quad_ok n) as (S & _). rewrite (q_func_eq n) by auto. apply (zero_quad_denot n x). Qed.
Lemma inner_exact : forall n H A q f Cs gr, convex_on n f -> gradient_of n f gr -> exact_obj n H A -> good_quad n q -> (forall x, length x = n -> Cs x = Fin (f x)) ->
  exact_problem n f (plus_quad n H q) (mk_composite Cs gr (inner_nonsmooth A q) (inner_proximal A q) 0).
Proof.
  intros n H A q f Cs gr Cf Gf EX (Sq & Cq & Hq) HC. split; cbn [c_smooth c_grad c_nonsmooth c_prox]; auto.
  - apply plus_quad_convex; auto. apply EX.
  - intros x r chk Lx E. unfold plus_quad in E. destruct (H x) as [hx|] eqn:Eh; [|discriminate]. unfold inner_nonsmooth. rewrite (eo_value _ _ _ EX x hx chk Lx Eh). cbn [or_inf ext_add] in *. rewrite (no_quad_func n x Lx), (q_func_eq n) by auto. injection E as <-. f_equal. ring.
  - intros L w g HL Lw Lg. destruct (no_quad_ok n) as (S0 & C0). set (q0 := mk_iq L (FVec w) (FVec g) 0). assert (Sq0 : q_shape n q0) by (split; cbn; auto). unfold inner_proximal. fold q0.
    destruct (add_quad n q0 no_quad Sq0 S0 Logic.I C0) as (q1 & E1 & S1 & C1 & K1 & V1 & D1). destruct (add_quad n no_quad q S0 Sq C0 Cq) as (nq & En & Sn & Cn & Kn & _ & Dn). destruct (add_quad n q1 nq S1 Sn C1 Cn) as (q2 & E2 & S2 & C2 & K2 & V2 & D2).
    rewrite E1. cbn [rbind]. rewrite En. cbn [rbind]. rewrite E2. cbn [rbind].
    destruct (eo_prox _ _ _ EX q2) as (v & Ev & M); auto; [rewrite K2, K1, Kn; cbn; lra|apply V2; left; apply V1; left; exact Logic.I|]. rewrite Ev. cbn [or_nil].
    assert (K : forall z, length z = n -> plus_quad n H q2 z = ext_add (plus_quad n H q z) (Fin (L / 2 * sqn (vsub z w) + dot g z))).
    { intros z Lz. unfold plus_quad. destruct (H z) as [hz|]; cbn [ext_add]; auto. f_equal. rewrite D2, D1, Dn by auto. rewrite !(zero_quad_denot n z : q_denot n no_quad z = 0). change (q_denot n q0 z) with (L / 2 * sqn (vsub z w) + dot g z + 0). lra. }
    destruct M as (Lv & (r & Er) & Mv). split; auto. split; [exists r; rewrite <- K; auto|]. intros z Lz. rewrite <- !K by auto. auto.
Qed.
Lemma acc_two : forall n (a b : vec), length a = n -> length b = n -> acc_grad n [1; 1] [a; b] = vadd a b.
Proof.
  intros n a b La Lb. unfold acc_grad. cbn [combine map fst snd fold_left]. rewrite !vscal_1. f_equal. clear b Lb. revert a La. induction n as [|n IH]; intros [|c a] La; try discriminate; auto. unfold vadd, zeros in *. cbn in *. f_equal; [ring|apply IH; congruence].
Qed.
Lemma pull_gradient : forall T f g, true_adjoint T -> gradient_of (t_out T) f g -> (forall y, length y = t_out T -> length (g y) = t_out T) -> gradient_of (t_in T) (fun x => f (t_lin T x)) (fun x => t_adj T (g (t_lin T x))).
Proof.
  intros T f g A D Lg x Lx. destruct (adjoint_linear T A) as [Ln1 Ln2]. destruct A as (A1 & A2 & A3). split; [apply A2; apply Lg; auto|]. intros d Ld. destruct (D (t_lin T x) (A1 x Lx)) as [_ Dd]. specialize (Dd (t_lin T d) (A1 d Ld)).
  replace (dot (t_adj T (g (t_lin T x))) d) with (dot (g (t_lin T x)) (t_lin T d)).
  - assert (E : forall t, f (vadd (t_lin T x) (vscal t (t_lin T d))) = f (t_lin T (vadd x (vscal t d)))). { intros t. rewrite Ln1, Ln2 by vlen. reflexivity. }
    intros e He. destruct (Dd e He) as (dl & Hd). exists dl. intros h H0 H1. rewrite <- !E. auto.
  - rewrite (dot_comm (t_adj _ _) d), <- A3 by (auto; apply Lg; auto). apply dot_comm.
Qed.
Lemma pull_convex : forall T f, true_adjoint T -> convex_on (t_out T) f -> convex_on (t_in T) (fun x => f (t_lin T x)).
Proof.
  intros T f A C x y t Lx Ly Ht. rewrite (lin_between (t_in T) T A eq_refl x y t Lx Ly). apply C; auto; apply A; auto.
Qed.
Theorem nesta_exact : forall N n T P h G eps y, nesta_for N n T P h -> conjugates (t_out T) h G -> 0 < eps -> length y = t_out T ->
  exists p f g fs hs, src_smoothed (na_source N) (squad eps y) = Ok p /\ smooth_conjugate_of (t_out T) (plus_quad (t_out T) G (squad eps y)) (1 / eps) f g /\
    (forall x, length x = n -> sm_inner p x = g (t_lin T x)) /\ exact_problem n fs hs (nesta_problem N p) /\
    forall x, length x = n -> objective fs hs x = ext_add (P x) (Fin (f (t_lin T x))).
Proof.
  intros N n T P h G eps y [SF TI Hn SH HL HQ (H & HA & HP)] HC HE Ly. destruct (smoothed_spec _ T h G eps y SF HC HE Ly) as (p & f & g & Ep & SC & Ev). destruct (stands_map _ _ _ SF) as (TA & TE & _ & _).
  assert (SC' := SC). destruct SC' as (At & Cv & Gd & _). assert (Lg : forall v, length v = t_out T -> length (g v) = t_out T) by (intros v Lv; apply (At v Lv)).
  assert (Q0 : good_quad n (quad_or_zero (na_quadratic N))). { unfold quad_or_zero. destruct (na_quadratic N) as [q|]; [apply HQ; auto|]. destruct (zero_quad_ok n). repeat split; auto; cbn; lra. }
  assert (HA' : exact_obj n H (nesta_atom N)). { unfold nesta_atom. destruct (na_atom N) as [A|]; auto. rewrite SH. eapply exact_obj_ext; [|apply zero_exact; auto]. intros x Lx. symmetry. apply HA. }
  set (loss := fun x => match na_loss N with Some a => s_func a x | None => 0 end). exists p, f, g, (fun x => loss x + f (t_lin T x)), (plus_quad n H (quad_or_zero (na_quadratic N))). split; [exact Ep|]. split; [exact SC|]. split; [intros x Lx; apply Ev; congruence|].
  assert (Cf : convex_on n (fun x => f (t_lin T x))) by (rewrite <- TI; apply pull_convex; auto). assert (Gf : gradient_of n (fun x => f (t_lin T x)) (fun x => t_adj T (g (t_lin T x)))) by (rewrite <- TI; apply pull_gradient; auto).
  split.
  - unfold nesta_problem. apply inner_exact; auto.
    + unfold loss. destruct (na_loss N) as [a|] eqn:El; [apply convex_plus; auto; apply P_problem.smooth_convex; apply HL; auto|]. intros x z t Lx Lz Ht. specialize (Cf x z t Lx Lz Ht). cbv beta in *. lra.
    + intros x Lx. unfold nesta_grad, loss. destruct (Ev x ltac:(congruence)) as (_ & _ & Eg). rewrite Eg. destruct (na_loss N) as [a|] eqn:El.
      * destruct (HL a eq_refl) as (W & Cp & Gq & Hx). assert (Ga : is_gradient n (s_func a) x (s_grad a x)) by (apply P_smooth.smooth_gradient; auto; apply Hx; auto). rewrite SH, acc_two; [|apply Ga|apply (Gf x Lx)]. apply (gradient_plus n (s_func a) (fun x => f (t_lin T x))); auto.
      * destruct (Gf x Lx) as [L1 D1]. split; auto. intros d Ld. specialize (D1 d Ld). intros e He. destruct (D1 e He) as (dl & Hd). exists dl. intros t H0 H1. specialize (Hd t H0 H1). cbv beta in *. replace (0 + f (t_lin T (vadd x (vscal (0 + t) d))) - (0 + f (t_lin T (vadd x (vscal 0 d))))) with (f (t_lin T (vadd x (vscal (0 + t) d))) - f (t_lin T (vadd x (vscal 0 d)))) by ring. auto.
    + intros x Lx. unfold nesta_func, loss. destruct (Ev x ltac:(congruence)) as (Ef & _ & _). rewrite Ef. destruct (na_loss N) as [a|]; [|f_equal; ring]. rewrite acc_func_dot. cbn. unfold dot, vmul, vsum. cbn. f_equal. ring.
  - intros x Lx. rewrite HP by auto. unfold objective, loss. destruct (na_loss N) as [a|] eqn:El.
    + destruct (HL a eq_refl) as (W & Cp & Gq & Hx). rewrite (P_smooth.smooth_value a n x W Lx) by (apply Hx; auto). destruct (plus_quad _ _ _ _); cbn; auto. f_equal. ring.
    + destruct (plus_quad _ _ _ _); cbn; auto. f_equal. ring.
Qed.
