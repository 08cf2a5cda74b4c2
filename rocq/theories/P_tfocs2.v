(** The loop of tfocs with an exact solver. *)
From Coq Require Import Reals List Lra Lia Arith Bool.
From Verif Require Import M_affine SpecAffine P_affine M_loss M_smooth SpecSmooth P_smooth Vec Spec SpecConvex M_quad P_quad P_calc P_sep P_loss M_prox M_semi SpecAtom P_semi P_conj M_shift SpecBase P_shift M_afatom SpecCone M_cones P_cones M_fista SpecFista M_problem SpecProblem P_problem M_sconj SpecSconj P_sconj P_block3 P_path2 P_admm M_nesta SpecNesta P_nesta P_nesta2 P_nesta3 P_tfocs.
Import ListNotations.
Local Open Scope R_scope.

Lemma zero_good : forall n q, (forall q', q = Some q' -> good_quad n q') -> good_quad n (quad_or_zero q).
Proof. intros n [q|] HQ; [apply HQ; auto|]. destruct (zero_quad_ok n). repeat split; auto; cbn; lra. Qed.
Lemma prim_smoothed : forall pr n f q, prim_for pr n f -> good_quad n q ->
  exists conj, prim_conjugate pr = Ok conj /\ prim_shape pr = n /\ (1 <= n)%nat /\ convex_ext n f /\ forall eps x, 0 < eps -> length x = n ->
    exists C fs gs, tfocs_smoothed conj eps x q = Ok C /\ evaluates n (sc_eval C) fs gs /\ smooth_conjugate_of n (regularized (plus_quad n f q) eps x) (1 / (eps + coef q)) fs gs.
Proof.
  intros pr n f q PF (Sq & Cq & Hq).
  assert (K : forall eps x, 0 < eps -> length x = n -> exists sq, q_add (mk_iq eps (FVec x) (FScal 0) 0) (AQuad q) = Ok sq /\ q_shape n sq /\ center_ok n sq /\ coef sq = eps + coef q /\
    forall (H : vec -> ext) v, length v = n -> plus_quad n H sq v = regularized (plus_quad n H q) eps x v).
  { intros eps x HE Lx. destruct (squad_ok n eps x Lx) as (S1 & S2). destruct (add_quad n (squad eps x) q S1 Sq S2 Cq) as (sq & Es & Ss & Cs & Ks & _ & Ds). exists sq. split; [exact Es|]. split; [auto|]. split; [auto|]. split; [exact Ks|]. intros H v Lv.
    assert (R := squad_reg n (fun _ => Fin 0) eps x v). unfold plus_quad, regularized in *. destruct (H v) as [hv|]; cbn [ext_add] in *; auto. rewrite Ds by auto. injection R as R. f_equal. lra. }
  destruct PF as [n a md Hn W Hm Em Hc V|n c Hd N1 N2 W Hc].
  - assert (Hmd : mode_ok (dual_mode md)) by (destruct md; auto). destruct (conj_form n a md W Hm Em Hc) as (d & Ed & Ek & Emd & Wd & _ & _ & Ecd & _).
    destruct (conjugate_correct n d (dual_mode md) Wd Hmd Emd Ecd) as (e & Ee & Eke & Eme & We & Fd). replace (dual_mode (dual_mode md)) with md in * by (destruct md; reflexivity). destruct (double_conjugate_correct n a md W Hm Em Hc) as (d' & e' & Ed' & Ee' & Ke & _ & _ & De). rewrite Ed in Ed'. apply Ok_inj in Ed'. subst d'. rewrite Ee in Ee'. apply Ok_inj in Ee'. subst e'.
    exists (Some (SrcAtom d)). cbn [prim_conjugate prim_shape]. destruct (Req_EM_T _ 0); [|tauto]. rewrite Ed. split; [reflexivity|]. split; [apply W|]. split; [auto|]. split; [apply (fenchel_convex n (atom_doc n d (dual_mode md))); intros u Lu; rewrite <- De by auto; apply Fd; auto|].
    intros eps x HE Lx. destruct (K eps x HE Lx) as (sq & Es & Ss & Cs & Ks & Ds). unfold tfocs_smoothed. rewrite Es. cbn [rbind]. destruct (atom_smoothed_spec n d (dual_mode md) sq Hn Wd Hmd Emd Ecd ltac:(rewrite Ek; exact V) Ss Cs ltac:(lra)) as (C & G' & fs & gs & E & _ & F1 & F2 & Ev & SC).
    exists C, fs, gs. split; [exact E|]. split; [exact Ev|]. rewrite Ks in SC. eapply attains_ext; [|exact SC]. intros u Lu. assert (EG : G' u = atom_doc n a md u) by (rewrite <- De by auto; eapply fenchel_unique; [apply F1; auto|apply Fd; auto]). transitivity (plus_quad n (atom_doc n a md) sq u); [unfold plus_quad; rewrite EG; reflexivity|apply Ds; auto].
  - destruct c as [k b]. cbn [c_class c_base] in *. destruct (cone_conjugate_correct k n b Hd W Hc) as (d & Ed & Wd & Fd & e & Ee & We & De). assert (Sh : b_shape b = n) by apply W.
    assert (Hc' : coef (b_quadratic d) = 0). { unfold cone_conjugate in Ed. cbn [c_base c_class] in Ed. unfold conjugate_base in Ed. destruct (Req_EM_T _ 0); [|discriminate]. unfold work_out_conjugate in Ed. cbn [option_map] in Ed. injection Ed as Ed. rewrite <- Ed. reflexivity. }
    assert (Hd' : cone_dim (polar_class k) n) by (destruct k; cbn in *; auto). assert (M1 : polar_class k <> KL2) by (destruct k; cbn; congruence). assert (M2 : polar_class k <> KL2Polar) by (destruct k; cbn; congruence).
    destruct (cone_conjugate_correct (polar_class k) n d Hd' Wd Hc') as (e' & Ee' & _ & Fe & _). assert (PP : polar_class (polar_class k) = k) by (destruct k; reflexivity). rewrite PP in *. rewrite Ee in Ee'. injection Ee' as <-.
    exists (Some (SrcCone (mk_cone (polar_class k) d))). cbn [prim_conjugate prim_shape c_base]. rewrite Ed. split; [reflexivity|]. split; [exact Sh|]. split; [destruct k; cbn in Hd; lia|]. split; [apply (fenchel_convex n (base_doc n (cone_fun (polar_class k)) d)); intros u Lu; rewrite <- De by auto; apply Fe; auto|].
    intros eps x HE Lx. destruct (K eps x HE Lx) as (sq & Es & Ss & Cs & Ks & Ds). unfold tfocs_smoothed. rewrite Es. cbn [rbind]. destruct (cone_smoothed_spec n (mk_cone (polar_class k) d) sq Hd' M1 M2 Wd Hc' Ss Cs ltac:(lra)) as (C & G' & fs & gs & E & _ & F1 & F2 & Ev & SC). cbn [c_class c_base] in *.
    exists C, fs, gs. split; [exact E|]. split; [exact Ev|]. rewrite Ks in SC. eapply attains_ext; [|exact SC]. intros u Lu. assert (EG : G' u = base_doc n (cone_fun k) b u) by (rewrite <- De by auto; eapply fenchel_unique; [apply F1; auto|apply Fe; auto]). transitivity (plus_quad n (base_doc n (cone_fun k) b) sq u); [unfold plus_quad; rewrite EG; reflexivity|apply Ds; auto].
Qed.
Lemma times_opp : forall v, times (-1) v = vopp v.
Proof. intros v. unfold times. destruct (Req_EM_T (-1) 1); [lra|]. unfold vscal, vopp. apply map_ext. intros a. ring. Qed.
Section TLoop.
Variables (run : solver) (F : tfocs_args) (n : nat) (P h G : vec -> ext).
Hypothesis TF : tfocs_for F n P h G.
Hypothesis SV : solves_tfocs run F n.
Let T := tf_map F.
Let m := t_out T.

Lemma tf_start : exists conj dsq, prim_conjugate (tf_primal F) = Ok conj /\ tfocs_quadratic T = Ok dsq /\ good_quad m dsq /\ (forall u, length u = m -> q_denot m dsq u = - dot (offset_of T) u) /\ length (offset_of T) = m /\ prim_shape (tf_primal F) = n /\ convex_ext n P /\
  forall idx eps center carried, 0 < eps -> length center = n -> exists C a, tfocs_smoothed conj eps center (quad_or_zero (tf_quadratic F)) = Ok C /\
    run idx (tfocs_problem (tf_dual F) dsq (tfocs_smooth T C)) carried (Rmax eps (tf_tol F)) = Ok a /\
    exact_tround n T P G (mk_round idx eps center (an_coefs a) (sm_inner (tfocs_smooth T C) (an_at a)) (Rmax eps (tf_tol F))).
Proof.
  destruct TF as [(f & PF & HP) GD (O1 & O2 & O3) _ HQ EXG HC]. fold T in GD, O1, O2, O3, EXG, HC. fold m in GD, O2, EXG, HC. assert (Q0 := zero_good n _ HQ). destruct (prim_smoothed _ n f _ PF Q0) as (conj & Ec & Esh & Hn & Cf & Sm). exists conj.
  assert (LO : length (offset_of T) = m). { unfold offset_of. destruct (t_off T) as [[o|]|]; [apply O2; auto|apply zeros_length|apply zeros_length]. }
  assert (DQ : exists dsq, tfocs_quadratic T = Ok dsq /\ good_quad m dsq /\ (forall u, length u = m -> q_denot m dsq u = - dot (offset_of T) u)).
  { unfold tfocs_quadratic, offset_of in *. destruct (t_off T) as [[o|]|]; [| |tauto].
    - eexists. split; [reflexivity|]. split; [repeat split; cbn; auto; [rewrite vopp_length; auto|lra]|]. intros u Lu. unfold q_denot, quad_fun. cbn [coef center linear_term constant_term]. cbn [fbcast]. rewrite dot_opp_l. lra.
    - eexists. split; [reflexivity|]. destruct (zero_quad_ok m). split; [repeat split; auto; cbn; lra|]. intros u Lu. rewrite dot_zeros_l. rewrite (zero_quad_denot m u). ring. }
  destruct DQ as (dsq & Ed & Gq & Dq). exists dsq. split; [exact Ec|]. split; [exact Ed|]. split; [exact Gq|]. split; [exact Dq|]. split; [exact LO|]. split; [exact Esh|].
  assert (CP : convex_ext n P). { assert (C1 : convex_ext n (plus_quad n f (quad_or_zero (tf_quadratic F)))) by (apply plus_quad_convex; auto; apply Q0). intros x y t a b Lx Ly Ht Ex Ey. assert (Lb : length (between x y t) = n) by auto with vl. rewrite HP in * by auto. apply C1; auto. }
  split; [exact CP|]. intros idx eps center carried HE Lc. destruct (Sm eps center HE Lc) as (C & fs & gs & EC & Ev & SC). exists C. destruct GD as (AD & _ & TI & _). assert (A' := adjoint_true T AD).
  assert (SC0 := SC). destruct SC0 as (At & Cv & Gd & _). assert (Lg : forall v, length v = n -> length (gs v) = n) by (intros v Lv; apply (At v Lv)).
  assert (Lopp : forall u, length u = m -> length (vopp (t_adj T u)) = n). { intros u Lu. rewrite vopp_length. rewrite <- TI. apply AD. auto. }
  assert (EvU : forall u, length u = m -> sm_func (tfocs_smooth T C) u = fs (vopp (t_adj T u)) /\ sm_inner (tfocs_smooth T C) u = gs (vopp (t_adj T u)) /\ sm_grad (tfocs_smooth T C) u = vopp (t_lin T (gs (vopp (t_adj T u))))).
  { intros u Lu. destruct (Ev _ (Lopp u Lu)) as (E1 & E2 & _). unfold sm_func, sm_grad, sm_inner, sm_point, tfocs_smooth. cbn [fst snd scalar_multiply adjoint t_aff t_adj]. rewrite !times_opp. rewrite E1, E2. auto. }
  set (T2 := scalar_multiply (adjoint T) (-1)). assert (A2 : true_adjoint T2). { unfold T2, scalar_multiply. split; [|split]; cbn [t_lin t_adj t_in t_out adjoint]. - intros x Lx. rewrite times_opp. rewrite TI. apply Lopp; auto. - intros u Lu. rewrite times_opp, vopp_length. apply AD; auto. - intros x u Lx Lu. rewrite !times_opp, dot_opp_l, dot_opp_r. f_equal. apply A'; auto. }
  assert (T2o : t_out T2 = n) by exact TI. assert (EL : forall u, t_lin T2 u = vopp (t_adj T u)) by (intros u; apply times_opp). assert (EA : forall u, t_adj T2 u = vopp (t_lin T u)) by (intros u; apply times_opp).
  assert (EX : exact_problem m (fun u => fs (t_lin T2 u)) (plus_quad m G dsq) (tfocs_problem (tf_dual F) dsq (tfocs_smooth T C))).
  { unfold tfocs_problem. apply inner_exact; auto.
    - apply (pull_convex T2 fs A2). rewrite T2o. exact Cv.
    - assert (GG := pull_gradient T2 fs gs A2). rewrite T2o in GG. specialize (GG Gd Lg). intros u Lu. specialize (GG u Lu). cbv beta in GG. destruct (EvU u Lu) as (_ & _ & E3). rewrite E3. rewrite (EL u), EA in GG. exact GG.
    - intros u Lu. destruct (EvU u Lu) as (E1 & _). rewrite E1, EL. reflexivity. }
  destruct (SV idx eps center conj C dsq carried _ _ HE Lc Ec Ed EC EX) as (a & Ea & Ma & Eat). exists a. split; [exact EC|]. split; [exact Ea|]. fold T in Ma. fold m in Ma. assert (La : length (an_coefs a) = m) by apply Ma.
  exists fs. cbn [r_eps r_center r_primal r_dual]. fold m. split; [|split].
  - intros v Lv. destruct (At v Lv) as (Fn & _). eapply is_fenchel_ext; [|exact Fn]. intros u Lu. unfold regularized. rewrite HP by auto. reflexivity.
  - eapply argmin_ext; [|exact Ma]. intros u Lu. cbv beta. unfold objective, plus_quad. rewrite EL. destruct (G u) as [gu|]; cbn; auto. f_equal. rewrite Dq by auto. ring.
  - rewrite Eat. destruct (EvU _ La) as (_ & E2 & _). rewrite E2. set (w := vopp (t_adj T (an_coefs a))). assert (Lw : length w = n) by (apply Lopp; auto). destruct (At w Lw) as ((Up & _) & Lgw & Eg & _).
    assert (ER : forall u, length u = n -> regularized P eps center u = regularized (plus_quad n f (quad_or_zero (tf_quadratic F))) eps center u) by (intros u Lu; unfold regularized; rewrite HP by auto; reflexivity).
    split; [exact Lgw|]. split; [rewrite ER, Eg by auto; cbn; eauto|]. intros z Lz. cbv beta. rewrite !ER by auto. rewrite Eg. destruct (regularized _ eps center z) as [rw|] eqn:Ew; [|cbn; auto]. cbn [ext_add ext_le]. specialize (Up z rw Lz Ew). lra.
Qed.
Lemma tround_len : forall r, exact_tround n T P G r -> length (r_dual r) = n.
Proof. intros r (S & _ & _ & (L & _)). exact L. Qed.
Section Inner.
Variables (conj : option source) (dsq : iq).
Hypothesis PASS : forall idx eps center carried, 0 < eps -> length center = n -> exists C a, tfocs_smoothed conj eps center (quad_or_zero (tf_quadratic F)) = Ok C /\
    run idx (tfocs_problem (tf_dual F) dsq (tfocs_smooth T C)) carried (Rmax eps (tf_tol F)) = Ok a /\
    exact_tround n T P G (mk_round idx eps center (an_coefs a) (sm_inner (tfocs_smooth T C) (an_at a)) (Rmax eps (tf_tol F))).
Lemma tfocs_loop_ran : forall epsilon idx center carried last, epsilon <> [] -> (forall e, In e epsilon -> 0 < e) -> length center = n ->
  exists o, tfocs_loop run F conj dsq idx epsilon center carried last = Ok o /\ tran F n P G idx center epsilon o.
Proof.
  induction epsilon as [|eps rest IH]; intros idx center carried last NE HE Lc; [tauto|]. clear NE. cbn [tfocs_loop].
  destruct (PASS idx eps center carried (HE eps (or_introl eq_refl)) Lc) as (C & a & EC & Ea & ER). rewrite EC. cbn [rbind]. fold T. rewrite Ea. cbn [rbind]. set (g := sm_inner (tfocs_smooth T C) (an_at a)) in *. set (r := mk_round idx eps center (an_coefs a) g (Rmax eps (tf_tol F))) in *. assert (Lg : length g = n) by apply (tround_len r ER).
  assert (ST : primal_close (tf_coef_tol F) center g = true <-> tsettled F r). { unfold primal_close, tsettled. cbn [r_center r_dual r]. destruct (Rlt_dec _ _); split; intros A; auto; try discriminate; tauto. }
  destruct (primal_close _ _ _) eqn:Eb.
  - eexists. split; [reflexivity|]. split; cbn [o_rounds o_broke o_primal o_dual o_warned]; [auto|cbn; auto|reflexivity|auto|]. exists [], r. split; [reflexivity|]. split; [reflexivity|]. split; [auto|]. split; [auto|]. split; [exact ST|]. split; [discriminate|intros (r' & [] & _)].
  - rewrite extrapolate_relax by congruence. set (c' := vadd center (vscal (1 + INR idx / (INR idx + 3)) (vsub g center))) in *. assert (Lc' : length c' = n) by (unfold c'; auto with vl).
    assert (NS : ~ tsettled F r) by (intros Hs; apply ST in Hs; discriminate).
    destruct rest as [|e2 rest].
    + cbn [tfocs_loop rmap]. eexists. split; [reflexivity|]. split; cbn [o_rounds o_broke o_primal o_dual o_warned]; [auto|cbn; auto|reflexivity|auto|]. exists [], r. split; [reflexivity|]. split; [reflexivity|]. split; [auto|]. split; [auto|]. split; [split; [discriminate|tauto]|].
      rewrite orb_false_r, Nat.eqb_eq. split; [intros E; exists r; split; [left; auto|exact E]|intros (r' & [<-|[]] & E); exact E].
    + destruct (IH (S idx) c' (an_prox a) (Some (an_coefs a))) as (o & Eo & RN); [discriminate|intros e He; apply HE; right; auto|auto|]. rewrite Eo. cbn [rmap]. eexists. split; [reflexivity|].
      destruct RN as [R1 R2 R3 R4 (rs & r' & E1 & E2 & E3 & F1 & F2 & E5)]. split; cbn [o_rounds o_broke o_primal o_dual o_warned]; [auto|cbn [linked]; auto|cbn [map length firstn]; f_equal; exact R3|auto|]. exists (r :: rs), r'. split; [rewrite E1; reflexivity|]. split; [exact E2|]. split.
      { destruct (o_broke o); [exact E3|]. destruct E3 as (E3 & E3'). split; [cbn [length] in *; congruence|]. rewrite E3'. reflexivity. }
      split; [constructor; auto|]. split; [exact F2|].
      rewrite orb_true_iff, Nat.eqb_eq, E5. split.
      * intros [E|(r2 & I2 & E)]; [exists r; split; [destruct (o_broke o); left; auto|exact E]|]. exists r2. split; [destruct (o_broke o); right; auto|exact E].
      * intros (r2 & I2 & E). destruct (o_broke o); destruct I2 as [<-|I2]; auto; right; exists r2; auto.
Qed.
End Inner.
Theorem tfocs_ran : schedule (tf_epsilon F) (tf_max_iters F) <> [] -> (forall e, In e (schedule (tf_epsilon F) (tf_max_iters F)) -> 0 < e) ->
  exists o, tfocs run F = Ok o /\ tran F n P G 0 (zeros n) (schedule (tf_epsilon F) (tf_max_iters F)) o.
Proof.
  intros NE HE. destruct tf_start as (conj & dsq & Ec & Ed & _ & _ & _ & Sh & _ & PASS). unfold tfocs. rewrite Ec. cbn [rbind]. fold T. rewrite Ed. cbn [rbind]. rewrite Sh. apply tfocs_loop_ran; auto. apply zeros_length.
Qed.
Lemma tlinked_len : forall rs first y, length y = n -> linked first y rs -> Forall (exact_tround n T P G) rs -> Forall (fun r => length (r_center r) = n) rs.
Proof.
  induction rs as [|r rs IH]; intros first y Ly LK FE; [auto|]. destruct LK as (_ & Ec & LK). apply Forall_cons_iff in FE. destruct FE as (E1 & FE). constructor; [congruence|]. assert (Ld := tround_len r E1). apply (IH (S first) _) in LK; auto with vl.
Qed.
Lemma tf_round : (forall r, exact_tround n T P G r -> 0 < r_eps r -> length (r_center r) = n -> forall s, is_argmin n (composed_affine P h T) s -> towards n s r) /\
  (forall r z, exact_tround n T P G r -> 0 < r_eps r -> length (r_center r) = n -> length z = n ->
    ext_le (composed_affine P h T (r_dual r)) (ext_add (composed_affine P h T z) (Fin (r_eps r * norm (vsub z (r_dual r)) * norm (vsub (r_dual r) (r_center r)))))) /\
  (forall r, exact_tround n T P G r -> 0 < r_eps r -> length (r_center r) = n -> r_dual r = r_center r -> is_argmin n (composed_affine P h T) (r_center r)) /\
  forall r, exact_tround n T P G r -> 0 < r_eps r -> length (r_center r) = n -> exists c, composed_affine P h T (r_dual r) = Fin c /\ forall z, length z = n ->
    ext_le (Fin (c + r_eps r / 2 * (sqn (vsub (r_dual r) (r_center r)) + sqn (vsub z (r_dual r))))) (ext_add (composed_affine P h T z) (Fin (r_eps r / 2 * sqn (vsub z (r_center r))))).
Proof.
  destruct tf_start as (conj & dsq & _ & _ & _ & _ & LO & _ & CP & _). assert (GD := tf_for_map _ _ _ _ _ TF). destruct (tf_for_offset _ _ _ _ _ TF) as (_ & _ & AF). assert (HC := tf_for_conjugate _ _ _ _ _ TF). fold T in GD, AF, HC. split; [|split; [|split]]; intros.
  - eapply tround_towards; eauto. - eapply tround_value; eauto. - eapply tround_fixed; eauto. - eapply tround_prox; eauto.
Qed.
Lemma tall_towards : forall rs first y epsilon s, length y = n -> linked first y rs -> Forall (exact_tround n T P G) rs -> map r_eps rs = firstn (length rs) epsilon -> (forall e, In e epsilon -> 0 < e) ->
  is_argmin n (composed_affine P h T) s -> Forall (towards n s) rs.
Proof.
  intros rs first y epsilon s Ly LK FE EE HE SP. assert (FL := tlinked_len rs first y Ly LK FE). assert (FP := eps_pos rs epsilon EE HE). rewrite Forall_forall in *. intros r I. apply (proj1 tf_round); auto.
Qed.
Theorem tcloser : forall y epsilon o s, length y = n -> (forall e, In e epsilon -> 0 < e) -> tran F n P G 0 y epsilon o -> is_argmin n (composed_affine P h T) s ->
  norm (vsub (o_primal o) s) <= norm (vsub y s) /\ Forall (fun r => norm (vsub (r_center r) s) <= norm (vsub y s) /\ norm (vsub (r_dual r) s) <= norm (vsub (r_center r) s)) (o_rounds o).
Proof.
  intros y epsilon o us Ly HE [R1 R2 R3 R4 (rs & r & E1 & E2 & E3 & _)] SP. assert (Lus : length us = n) by apply SP. assert (FT := tall_towards _ 0%nat y epsilon us Ly R2 R1 R3 HE SP).
  assert (Cen : forall k, (k <= length (o_rounds o))%nat -> norm (vsub (center_after 0 y (firstn k (o_rounds o))) us) <= norm (vsub y us)).
  { intros k Hk. unfold norm. apply sqrt_le_1_alt. destruct (linked_skip k _ _ _ R2 Hk) as (_ & LK). apply (chain_closer n us Lus (firstn k (o_rounds o)) 0%nat y Ly LK). apply Forall_forall. intros r0 I. rewrite Forall_forall in FT. apply FT. rewrite <- (firstn_skipn k). apply in_or_app. auto. }
  assert (Rc : Forall (fun r => norm (vsub (r_center r) us) <= norm (vsub y us)) (o_rounds o)).
  { apply Forall_forall. intros r0 I. apply In_nth with (d := r0) in I. destruct I as (k & Hk & En). destruct (linked_skip k _ _ _ R2 ltac:(lia)) as (LK & _). assert (Sk : exists t, skipn k (o_rounds o) = r0 :: t).
    { clear - Hk En. revert k Hk En. generalize (o_rounds o). induction l as [|a l IH]; intros [|k] Hk En; cbn in *; try lia; [subst; eauto|]. apply IH; auto; lia. }
    destruct Sk as (t & Sk). rewrite Sk in LK. destruct LK as (_ & Ec & _). rewrite Ec. apply Cen. lia. }
  split.
  - destruct (o_broke o).
    + rewrite E3. rewrite Forall_forall in Rc. apply Rc. rewrite E1. apply in_or_app. right. left. auto.
    + destruct E3 as (_ & ->). rewrite <- (firstn_all (o_rounds o)). apply Cen. lia.
  - rewrite Forall_forall in *. intros r0 I. split; auto. destruct (FT r0 I) as (Ld & Tw). unfold norm. apply sqrt_le_1_alt. assert (FL := tlinked_len _ 0%nat y Ly R2 ltac:(apply Forall_forall; exact R1)). rewrite Forall_forall in FL. specialize (FL r0 I). rewrite (sqn_vsub_sym (r_dual r0) us) by vl n. rewrite (sqn_vsub_sym (r_center r0) us) by vl n. pose proof (sqn_nonneg (vsub (r_dual r0) (r_center r0))). lra.
Qed.
Theorem tstops : forall y epsilon o s, length y = n -> (forall e, In e epsilon -> 0 < e) -> tran F n P G 0 y epsilon o -> is_argmin n (composed_affine P h T) s -> 0 < tf_coef_tol F ->
  3 * exp (sqn (vsub y s) / (3 * (tf_coef_tol F * tf_coef_tol F))) < INR (length epsilon) + 3 -> o_broke o = true.
Proof.
  intros y epsilon o s Ly HE [R1 R2 R3 R4 (rs & r & E1 & E2 & E3 & F1 & F2 & _)] SP Ht HK. destruct (o_broke o) eqn:Eb; auto. exfalso. destruct E3 as (EL & _). assert (Ls : length s = n) by apply SP.
  assert (FN : Forall (fun r => ~ tsettled F r) (o_rounds o)). { rewrite E1. apply Forall_app. split; auto. constructor; [|constructor]. intros Hs. apply F2 in Hs. discriminate. } clear F1 F2 E1 E2.
  set (tol := tf_coef_tol F) in *. set (D := sqn (vsub y s)) in *. assert (HD : 0 <= D) by apply sqn_nonneg. assert (T2 : 0 < tol * tol) by (apply Rmult_lt_0_compat; auto). assert (FT := tall_towards _ 0%nat y epsilon s Ly R2 R1 R3 HE SP).
  assert (CB := chain_bound n s Ls tol (o_rounds o) 0%nat y ltac:(lra) Ly R2 FT). rewrite EL in CB. cbn [INR] in CB. rewrite Nat.add_0_l, Rplus_0_l in CB.
  assert (Q : 3 * (tol * tol) * (ln (INR (length epsilon) + 3) - ln 3) <= D).
  { apply CB. rewrite Forall_forall in *. intros r0 I. apply Rnot_lt_le. intros Hn. apply (FN r0 I). unfold tsettled. fold tol. pose proof (Rmax_r (norm (r_dual r0)) 1). nra. }
  assert (Pp : 0 < 3 * exp (D / (3 * (tol * tol)))) by (apply Rmult_lt_0_compat; [lra|apply exp_pos]). assert (Lk := ln_increasing _ _ Pp HK). rewrite ln_mult in Lk by (try apply exp_pos; lra). rewrite ln_exp in Lk. assert (D / (3 * (tol * tol)) * (3 * (tol * tol)) = D) by (field; lra). set (w := 3 * (tol * tol)) in *. assert (w * (D / w) < w * (ln (INR (length epsilon) + 3) - ln 3)) by (apply Rmult_lt_compat_l; [unfold w; lra|lra]). lra.
Qed.
(** What stopping means: the last round's primal point, which tfocs does not return, and how far the returned one is from it *)
Theorem tstop_value : forall y epsilon o s, length y = n -> (forall e, In e epsilon -> 0 < e) -> tran F n P G 0 y epsilon o -> is_argmin n (composed_affine P h T) s -> o_broke o = true ->
  exists r rs, o_rounds o = rs ++ [r] /\ norm (vsub (o_primal o) (r_dual r)) < tf_coef_tol F * Rmax (norm (r_dual r)) 1 /\
    ext_le (composed_affine P h T (r_dual r)) (ext_add (composed_affine P h T s) (Fin (r_eps r * norm (vsub y s) * (tf_coef_tol F * Rmax (norm (r_dual r)) 1)))).
Proof.
  intros y epsilon o s Ly HE TR SP Hb. assert (CL := tcloser y epsilon o s Ly HE TR SP). destruct TR as [R1 R2 R3 R4 (rs & r & E1 & E2 & E3 & F1 & F2 & _)]. exists r, rs. split; auto. rewrite Hb in E3. apply F2 in Hb. unfold tsettled in Hb. rewrite E3. split; [exact Hb|].
  assert (FL := tlinked_len _ 0%nat y Ly R2 R1). assert (FP := eps_pos _ epsilon R3 HE). assert (I : In r (o_rounds o)) by (rewrite E1; apply in_or_app; right; left; auto). destruct CL as (_ & CL). rewrite Forall_forall in *. destruct (CL r I) as (C1 & C2). assert (Ld := tround_len r (R1 r I)). assert (Ls : length s = n) by apply SP.
  assert (V := proj1 (proj2 tf_round) r s (R1 r I) (FP r I) (FL r I) Ls). assert (Ns : norm (vsub (r_dual r) (r_center r)) = norm (vsub (r_center r) (r_dual r))) by (unfold norm; f_equal; apply sqn_vsub_sym; rewrite Ld; symmetry; apply FL; auto). assert (Ns2 : norm (vsub s (r_dual r)) = norm (vsub (r_dual r) s)) by (unfold norm; f_equal; apply sqn_vsub_sym; congruence). rewrite Ns, Ns2 in V. specialize (FP r I).
  destruct (composed_affine P h T s) as [c|]; [|destruct (composed_affine P h T (r_dual r)); cbn; auto]. destruct (composed_affine P h T (r_dual r)) as [d|]; cbn in *; [|auto]. pose proof (norm_nonneg (vsub (r_center r) (r_dual r))). pose proof (norm_nonneg (vsub (r_dual r) s)).
  assert (norm (vsub (r_dual r) s) * norm (vsub (r_center r) (r_dual r)) <= norm (vsub y s) * (tf_coef_tol F * Rmax (norm (r_dual r)) 1)) by (apply Rmult_le_compat; lra). assert (r_eps r * (norm (vsub (r_dual r) s) * norm (vsub (r_center r) (r_dual r))) <= r_eps r * (norm (vsub y s) * (tf_coef_tol F * Rmax (norm (r_dual r)) 1))) by (apply Rmult_le_compat_l; lra). lra.
Qed.
End TLoop.
