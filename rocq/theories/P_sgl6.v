(** Proofs about sparse group lasso objects. *)
From Coq Require Import Reals List Lra Lia Psatz ZArith Bool FunctionalExtensionality.
From Verif Require Import Vec Spec M_quad M_prox M_semi SpecAtom M_shift SpecBase SpecMode M_mode SpecModed SpecWeighted SpecPart SpecGroup M_mixed M_weighted M_group M_mixed_atom SpecGatom SpecLinear SpecSgl M_sgl SpecSglObj
  P_quad P_prox P_feas P_semi P_conj P_shift P_gauge P_part P_weighted P_kinds P_group P_group2 P_linear P_search P_sgl P_sgl2 P_sgl3 P_sgl4 P_sgl5.
Import ListNotations.
Local Open Scope R_scope.

Lemma spen_filled : forall labels lw given, sparse_group labels lw (group_weight (filled given labels) labels) = sparse_group labels lw (group_weight given labels).
Proof.
  intros labels lw given. apply functional_extensionality. intros x. unfold sparse_group. f_equal. pose proof (gfun_filled false labels given) as E. unfold gfun in E. exact (f_equal (fun h => h x) E).
Qed.
Lemma spread_ok : forall n lw, (length lw = n \/ length lw = 1%nat) -> exists l, spread n lw = Ok l /\ length l = n /\ (forall c, In c l -> In c lw) /\ (length lw = n -> l = lw) /\ (forall c, lw = [c] -> l = repeat c n).
Proof.
  intros n lw H. unfold spread. destruct (Nat.eqb (length lw) n) eqn:E.
  - apply Nat.eqb_eq in E. exists lw. split; auto. split; auto. split; auto. split; auto. intros c ->. simpl in E. subst n. auto.
  - apply Nat.eqb_neq in E. destruct H as [|H]; [tauto|]. destruct lw as [|c [|d lw]]; try discriminate. exists (repeat c n). split; auto. split; [apply repeat_length|].
    split; [intros d Hd; apply repeat_spec in Hd; subst; left; auto|]. split; [tauto|]. intros d Ed. injection Ed as <-. auto.
Qed.
Theorem new_sgl_correct : forall dual groups lw weights m o q, mode_ok m -> Forall weight_legal lw -> (length lw = length groups \/ length lw = 1%nat) ->
  weights_nonneg groups weights -> (forall v, o = Some v -> length v = length groups) -> q_shape (length groups) q ->
  exists a, new_sgl dual groups lw weights (lag_of m) (bnd_of m) o (Some q) = Ok a /\ s_dual a = dual /\ s_groups a = groups /\ sgl_wf (length groups) a m /\
    (length lw = length groups -> s_lasso a = lw) /\ (forall c, lw = [c] -> s_lasso a = repeat c (length groups)) /\
    (forall g, In g groups -> group_weight (s_weights a) groups g = group_weight weights groups g) /\ m_base (s_moded a) = new_base (length groups) o (Some q).
Proof.
  intros dual groups lw weights m o q Hm Hl Hs Hw Ho Hq. destruct (new_gatom_correct false groups weights m o q Hm Hw Ho Hq) as (g & Eg & _ & Gg & (_ & Wg & Mg) & Fg & Bg).
  destruct (spread_ok _ _ Hs) as (l & El & Ll & Il & E1 & E2). assert (Hll : Forall weight_legal l) by (rewrite Forall_forall in *; auto).
  unfold new_sgl. rewrite Eg. cbn [rbind]. rewrite El. cbn [rbind]. rewrite (proj1 (new_watom_correct WL1 l m None None Hm) Hll). cbn [rbind].
  eexists. split; [reflexivity|]. cbn [s_dual s_groups s_lasso s_weights s_moded]. rewrite Gg in *. split; auto. split; auto. split; [|auto]. repeat (split; auto).
Qed.
Theorem new_sgl_rejects : forall dual groups lw weights m o q, mode_ok m ->
  (length lw <> length groups /\ length lw <> 1%nat \/ (length lw = length groups \/ length lw = 1%nat /\ groups <> []) /\ ~ Forall weight_legal lw) ->
  new_sgl dual groups lw weights (lag_of m) (bnd_of m) o q = Err ValueError.
Proof.
  intros dual groups lw weights m o q Hm H. unfold new_sgl, new_gatom. rewrite new_moded_ok by auto. cbn [rmap rbind].
  destruct H as [[H1 H2]|[Hs Hl]].
  - unfold spread. destruct (Nat.eqb _ _) eqn:E; [apply Nat.eqb_eq in E; tauto|]. destruct lw as [|c [|d lw]]; auto. tauto.
  - destruct (spread_ok (length groups) lw ltac:(tauto)) as (l & El & Ll & Il & E1 & E2). rewrite El. cbn [rbind].
    assert (~ Forall weight_legal l).
    { intros C. apply Hl. destruct Hs as [Hs|[Hs Hg]]; [rewrite E1 in C; auto|]. destruct lw as [|c [|d lw]]; try discriminate. rewrite (E2 c) in C by auto. constructor; auto.
      destruct groups as [|g gs]; [congruence|]. cbn [length repeat] in C. inversion C. auto. }
    rewrite (proj2 (new_watom_correct WL1 l m None None Hm) H). auto.
Qed.

(** ** Proximal maps *)
Theorem sgl_proximal_lagrange : forall n a lam p, sgl_wf n a (Lagrange lam) -> s_dual a = false -> no_zero_inf a lam -> q_shape n p ->
  0 < coef (b_quadratic (m_base (s_moded a))) + coef p -> some_array (m_base (s_moded a)) p ->
  exists v, sgl_proximal a (AQuad p) = Ok v /\ prox_spec n (gmode (spen a) (Lagrange lam)) (m_base (s_moded a)) p v.
Proof.
  intros n a lam p (Lg & Ll & Hl & Hw & Hm) Ed Hn Hq Hc Ha. unfold sgl_proximal. rewrite Ed. apply moded_proximal_correct; auto. intros x L Lx HL.
  apply s_lagrange_correct; auto. apply Hm.
Qed.
Lemma base_ok : forall groups lw weights b, 0 <= b -> length lw = length groups -> Forall weight_legal lw ->
  base_conjugate groups lw weights (Some b) = Ok (mk_sgl false groups lw (filled weights groups) (mk_moded (Some b) None (new_base (length groups) None None))).
Proof.
  intros groups lw weights b Hb Ll Hl. unfold base_conjugate, new_sgl, new_gatom. pose proof (new_moded_ok (length groups) (Lagrange b) None None Hb) as N1. pose proof (proj1 (new_watom_correct WL1 lw (Lagrange b) None None Hb) Hl) as N2. cbn [lag_of bnd_of] in N1, N2. rewrite N1. cbn [rmap rbind].
  unfold spread. rewrite (proj2 (Nat.eqb_eq _ _) Ll). cbn [rbind]. rewrite N2. cbn [rbind]. auto.
Qed.
Theorem sgl_proximal_dual : forall n a b p h, sgl_wf n a (Bound b) -> s_dual a = true -> no_zero_inf a b -> q_shape n p ->
  0 < coef (b_quadratic (m_base (s_moded a))) + coef p -> some_array (m_base (s_moded a)) p -> indicates n (dual_ball n (spen a) b) h ->
  exists v, sgl_proximal a (AQuad p) = Ok v /\ prox_spec n h (m_base (s_moded a)) p v.
Proof.
  intros n a b p h (Lg & Ll & Hl & Hw & (El & Eb & Hb & Hwf)) Ed Hn Hq Hc Ha Hh. cbn in Hb. unfold sgl_proximal. rewrite Ed. unfold moded_proximal. apply shifted_prox_correct; auto. intros x Lx.
  rewrite Eb. cbn [bnd_of]. unfold sd_bound_prox. rewrite base_ok by (auto; congruence). cbn [rbind s_groups s_lasso s_weights].
  destruct (s_prox_pcert (s_groups a) (s_lasso a) (filled (s_weights a) (s_groups a)) n Lg Ll Hl (nonneg_filled _ _ Hw) x 1 b Lx Rlt_0_1 Hb Hn) as (q & Eq & C).
  rewrite Eq. cbn [rmap rbind]. eexists. split; [reflexivity|]. rewrite spen_filled in C. apply (indic_argmin n _ x (dual_ball n (spen a) b)); auto.
  apply pcert_dual_proj. replace (b / 1) with b in C by field. exact C.
Qed.
Lemma shifted_prox_err : forall n g p inner e, base_wf n g -> q_shape n p -> 0 < coef (b_quadratic g) + coef p -> some_array g p ->
  (forall x L, inner x L = Err e) -> shifted_prox g (AQuad p) inner = Err e.
Proof.
  intros n [sh o q] p inner e Hwf Hp HL Hv Hin. destruct Hwf as (Hs & Ho & Hq). unfold some_array in *. simpl in *.
  assert (Ho' : forall v, o = Some v -> length v = n) by (intros; apply Ho; auto).
  assert (Hv' : has_vec q \/ has_vec p \/ (exists v, o = Some v /\ v <> zeros n)).
  { destruct Hv as [H|[H|H]]; auto. right. right. destruct o as [v|]; [|congruence]. exists v. split; auto. apply Ho; auto. }
  destruct (setup n q p o Hq Hp Ho' Hv') as (s & off' & tq & l & E1 & E2 & Ec & El & Ll & Eoff & Eo' & Hl).
  unfold shifted_prox. cbn [b_quadratic b_offset]. rewrite E1. cbn [rbind]. rewrite E2. cbn [rbind]. rewrite Ec. destruct (Req_EM_T _ 0) as [C|C]; [lra|]. rewrite El, Hin. destruct off'; auto.
Qed.
Theorem sgl_proximal_missing : forall n a m p, sgl_wf n a m -> s_dual a = (match m with Lagrange _ => true | Bound _ => false end) -> q_shape n p ->
  0 < coef (b_quadratic (m_base (s_moded a))) + coef p -> some_array (m_base (s_moded a)) p ->
  sgl_proximal a (AQuad p) = Err NotImplementedError.
Proof.
  intros n a m p (Lg & Ll & Hl & Hw & (El & Eb & Hb & Hwf)) Ed Hq Hc Ha. unfold sgl_proximal, moded_proximal. rewrite Ed, El, Eb.
  destruct m as [l|b]; apply (shifted_prox_err n); auto.
Qed.

(** ** Values *)
Lemma s_value : forall labels lw given x lam, length labels = length x -> length lw = length x -> Forall weight_legal lw ->
  s_seminorm labels lw given x lam true = Ok (ext_scale lam (sparse_group labels lw (group_weight given labels) x)).
Proof.
  intros labels lw given x lam L1 L2 Hl. unfold s_seminorm. rewrite g_seminorm_primal by auto. cbn [rbind].
  assert (E : w_seminorm WL1 lw x lam true = Ok (ext_scale lam (wl1 lw x))).
  { unfold w_seminorm. destruct (violates lw x) eqn:V; cbn [andb].
    - rewrite (proj1 (violates_true lw x ltac:(auto) V)). auto.
    - rewrite (proj1 (violates_false lw x ltac:(auto) Hl V)). auto. }
  rewrite E. cbn [rbind]. unfold sparse_group, gfun. rewrite glasso_value. destruct (wl1 lw x); cbn [ext_scale ext_add]; auto. do 2 f_equal. ring.
Qed.
Theorem sgl_lagrange_value : forall n a lam x fuel, sgl_wf n a (Lagrange lam) -> s_dual a = false -> length x = n ->
  sgl_objective a x true fuel = Ok (moded_doc n (spen a) (s_moded a) (Lagrange lam) x).
Proof.
  intros n a lam x fuel (Lg & Ll & Hl & Hw & Hm) Ed Lx. unfold sgl_objective. rewrite Ed. apply moded_objective_correct; auto. intros y Ly. apply s_value; congruence || auto.
Qed.
(** Without the test infinite weights are ignored *)
Theorem sgl_lagrange_value_finite : forall n a lam x fuel, sgl_wf n a (Lagrange lam) -> s_dual a = false -> ~ In PInf (s_lasso a) -> length x = n ->
  sgl_objective a x false fuel = Ok (moded_doc n (spen a) (s_moded a) (Lagrange lam) x).
Proof.
  intros n a lam x fuel (Lg & Ll & Hl & Hw & Hm) Ed Hi Lx. unfold sgl_objective. rewrite Ed. apply moded_objective_correct; auto. intros y Ly.
  unfold spen. rewrite <- (s_value (s_groups a) (s_lasso a) (s_weights a) y lam) by (congruence || auto). unfold s_seminorm. rewrite g_seminorm_primal by congruence. cbn [rbind].
  unfold w_seminorm. cbn [andb]. assert (V : violates (s_lasso a) y = false); [|rewrite V; auto].
  { clear - Hi. revert y. induction (s_lasso a) as [|c w IH]; intros [|b y]; auto. cbn [violates]. destruct c; [|exfalso; apply Hi; left; auto]. cbn. apply IH. intros C. apply Hi. right. auto. }
Qed.
Theorem s_feasibility : forall labels lw given x b, length labels = length x -> length lw = length x -> Forall weight_legal lw -> weights_nonneg labels given -> 0 <= b ->
  let P := sparse_group labels lw (group_weight given labels) in
  (gball P b x -> s_constraint labels lw given x b = Ok (Fin 0)) /\ (s_constraint labels lw given x b = Ok (Fin 0) -> gball P (b * (1 + / 10 ^ 5)) x) /\
  (s_constraint labels lw given x b = Ok (Fin 0) \/ s_constraint labels lw given x b = Ok PInf).
Proof.
  intros labels lw given x b L1 L2 Hl Hw Hb P. unfold s_constraint, gball. rewrite s_value by auto. fold P. cbn [rmap rbind]. change (/ 10 ^ 5) with tol. pose proof tol_pos.
  destruct (P x) as [r|]; cbn [ext_scale ext_le].
  - assert (0 <= b * tol) by nra. destruct (Rle_dec (1 * r) (b * (1 + tol))); (split; [|split]); intros; auto; try discriminate; try (exfalso; lra); lra.
  - split; [tauto|]. split; [discriminate|auto].
Qed.

(** ** Conjugates *)
Lemma ball_zero : forall n P b, (forall v s, length v = n -> P v = Fin s -> 0 <= s) -> 0 <= b -> dual_ball n P b (zeros n).
Proof. intros n P b Hp Hb v s Lv Ev. rewrite dot_zeros_l. pose proof (Hp v s Lv Ev). nra. Qed.
Lemma gauge_ball_fenchel : forall n P b h u, gauge n P -> 0 <= b -> indicates n (dual_ball n P b) h -> length u = n -> is_fenchel n (gmode P (Lagrange b)) u (h u).
Proof.
  intros n P b h u G Hb Hh Lu. destruct (Hh u Lu) as [H1 H2]. destruct (Classical_Prop.classic (dual_ball n P b u)) as [B|B].
  - rewrite H1 by auto. split.
    + intros x r Lx Er. unfold gmode in Er. destruct (P x) as [s|] eqn:Ex; [|discriminate]. cbn in Er. injection Er as <-. specialize (B x s Lx Ex). lra.
    + intros e He. exists (zeros n), 0. split; [vlen|]. unfold gmode. rewrite (ga_zero _ _ G). cbn. rewrite Rmult_0_r. split; auto. rewrite dot_zeros_r. lra.
  - rewrite H2 by auto. unfold dual_ball in B. apply Classical_Pred_Type.not_all_ex_not in B. destruct B as (v & B). apply Classical_Pred_Type.not_all_ex_not in B. destruct B as (s & B).
    apply Classical_Prop.imply_to_and in B. destruct B as [Lv B]. apply Classical_Prop.imply_to_and in B. destruct B as [Ev B].
    apply ray_unbounded with (x := v) (rho := b * s) (slope := dot u v - b * s); try congruence; try lra.
    intros t Ht. unfold gmode. rewrite (ga_scal _ _ G t v s) by auto. simpl. eexists. split; [reflexivity|]. lra.
Qed.
Lemma ball_of_polar : forall n h h' b u, polar_pair n h h' -> length u = n -> gmode h' (Bound b) u = Fin 0 -> dual_ball n h b u.
Proof.
  intros n h h' b u P Lu E v s Lv Ev. unfold gmode in E. destruct (h' u) as [t|] eqn:Et; [|discriminate]. destruct (Rle_dec t b) as [Hb|]; [|discriminate].
  pose proof (po_holder _ _ _ P v u s t Lv Lu Ev Et). pose proof (ga_nonneg _ _ (po_gauge _ _ _ P) v s Lv Ev). nra.
Qed.
Lemma bound_zero : forall h b v r, gmode h (Bound b) v = Fin r -> r = 0.
Proof. intros h b v r E. destruct (gball_cases h b v) as [[E' _]|[E' _]]; congruence. Qed.
Lemma sum_ball_fenchel : forall n h1 h1' h2 h2' b h u, polar_pair n h1 h1' -> polar_pair n h1' h1 -> polar_pair n h2 h2' -> polar_pair n h2' h2 ->
  0 <= b -> indicates n (dual_ball n (fun v => ext_add (h1 v) (h2 v)) b) h -> length u = n ->
  is_fenchel n h u (gmode (fun v => ext_add (h1 v) (h2 v)) (Lagrange b) u).
Proof.
  intros n h1 h1' h2 h2' b h u P1 P1' P2 P2' Hb Hh Lu.
  pose proof (gauge_fenchel n h1' h1 (Bound b) u P1' Lu Hb) as F1. pose proof (gauge_fenchel n h2' h2 (Bound b) u P2' Lu Hb) as F2. cbn [dual_mode] in F1, F2.
  assert (Hin : forall x, length x = n -> dual_ball n (fun v => ext_add (h1 v) (h2 v)) b x -> h x = Fin 0) by (intros x Lx; apply (Hh x Lx)).
  assert (PLUS : forall x y, length x = n -> length y = n -> dual_ball n h1 b x -> dual_ball n h2 b y -> dual_ball n (fun v => ext_add (h1 v) (h2 v)) b (vadd x y)).
  { intros x y Lx Ly B1 B2 v s Lv Ev. destruct (h1 v) as [s1|] eqn:E1; [|discriminate]. destruct (h2 v) as [s2|] eqn:E2; [|discriminate]. injection Ev as <-.
    rewrite dot_add_l by congruence. specialize (B1 v s1 Lv E1). specialize (B2 v s2 Lv E2). lra. }
  assert (Z1 : gmode h1' (Bound b) (zeros n) = Fin 0) by (unfold gmode; rewrite (ga_zero _ _ (po_gauge' _ _ _ P1)); destruct (Rle_dec 0 b); [auto|lra]).
  assert (Z2 : gmode h2' (Bound b) (zeros n) = Fin 0) by (unfold gmode; rewrite (ga_zero _ _ (po_gauge' _ _ _ P2)); destruct (Rle_dec 0 b); [auto|lra]).
  assert (ON : forall x r, gmode h1' (Bound b) x = Fin r -> length x = n -> dual_ball n h1 b x).
  { intros x r E Lx. pose proof (bound_zero _ _ _ _ E). subst r. eapply ball_of_polar; eauto. }
  assert (ON2 : forall x r, gmode h2' (Bound b) x = Fin r -> length x = n -> dual_ball n h2 b x).
  { intros x r E Lx. pose proof (bound_zero _ _ _ _ E). subst r. eapply ball_of_polar; eauto. }
  assert (UNB : forall (g' : vec -> ext) x0, (forall M, exists x r, length x = n /\ g' x = Fin r /\ M < dot u x - r) -> length x0 = n ->
    (forall x r, g' x = Fin r -> length x = n -> r = 0 /\ dual_ball n (fun v => ext_add (h1 v) (h2 v)) b (vadd x x0)) -> forall M, exists x r, length x = n /\ h x = Fin r /\ M < dot u x - r).
  { intros g' x0 U L0 K M. destruct (U (M - dot u x0)) as (x & r & Lx & Ex & Hd). destruct (K x r Ex Lx) as [-> B]. exists (vadd x x0), 0. split; [vlen|]. split; [apply Hin; [vlen|auto]|]. rewrite dot_add_r by congruence. lra. }
  unfold gmode at 1. cbv beta. unfold gmode in F1 at 2. unfold gmode in F2 at 2. destruct (h1 u) as [r1|] eqn:E1; cbn [ext_scale ext_add] in *.
  - destruct (h2 u) as [r2|] eqn:E2; cbn [ext_scale ext_add] in *.
    + destruct F1 as [_ F1], F2 as [_ F2]. split.
      * intros x r Lx Ex. destruct (Classical_Prop.classic (dual_ball n (fun v => ext_add (h1 v) (h2 v)) b x)) as [B|B].
        -- rewrite Hin in Ex by auto. injection Ex as <-. specialize (B u (r1 + r2) Lu). cbv beta in B. rewrite E1, E2 in B. specialize (B eq_refl). rewrite dot_comm. lra.
        -- rewrite (proj2 (Hh x Lx) B) in Ex. discriminate.
      * intros e He. destruct (F1 (e / 2)) as (x & r & Lx & Ex & Hx); [lra|]. destruct (F2 (e / 2)) as (y & s & Ly & Ey & Hy); [lra|].
        pose proof (bound_zero _ _ _ _ Ex). pose proof (bound_zero _ _ _ _ Ey). subst r s. exists (vadd x y), 0. split; [vlen|]. split; [apply Hin; [vlen|]; apply PLUS; eauto|]. rewrite dot_add_r by congruence. lra.
    + intros M; apply (UNB (gmode h2' (Bound b)) (zeros n) F2); [vlen|]. intros x r Ex Lx. split; [eapply bound_zero; eauto|]. rewrite vadd_comm by vlen. apply PLUS; [vlen|auto| |eauto]. eapply ON; eauto. vlen.
  - intros M; apply (UNB (gmode h1' (Bound b)) (zeros n) F1); [vlen|]. intros x r Ex Lx. split; [eapply bound_zero; eauto|]. apply PLUS; [auto|vlen|eauto|]. eapply ON2; eauto. vlen.
Qed.
Lemma s_conjugate_form : forall n a m, sgl_wf n a m -> coef (b_quadratic (m_base (s_moded a))) = 0 ->
  exists d, conjugate_base (m_base (s_moded a)) = Some d /\
    sgl_conjugate a = Some (Ok (mk_sgl (negb (s_dual a)) (s_groups a) (s_lasso a) (filled (s_weights a) (s_groups a)) (mk_moded (lag_of (dual_mode m)) (bnd_of (dual_mode m)) d))).
Proof.
  intros n a m (Lg & Ll & Hl & Hw & (El & Eb & Hb & Hwf)) Hc. unfold sgl_conjugate, moded_conjugate, conjugate_base. destruct (Req_EM_T _ 0); [|congruence].
  unfold work_out_conjugate. eexists. split; [reflexivity|]. rewrite El, Eb. destruct m as [l|b]; cbn [lag_of bnd_of dual_mode].
  - rewrite (new_moded_ok _ (Bound l)) by auto. auto.
  - rewrite (new_moded_ok _ (Lagrange b)) by auto. auto.
Qed.
Theorem sgl_conjugate_lagrange : forall n a lam h, sgl_wf n a (Lagrange lam) -> s_dual a = false -> coef (b_quadratic (m_base (s_moded a))) = 0 ->
  indicates n (dual_ball n (spen a) lam) h ->
  exists e, sgl_conjugate a = Some (Ok e) /\ s_dual e = true /\ sgl_wf n e (Bound lam) /\ spen e = spen a /\
    forall u, length u = n -> is_fenchel n (moded_doc n (spen a) (s_moded a) (Lagrange lam)) u (base_doc n h (m_base (s_moded e)) u).
Proof.
  intros n a lam h W Ed Hc Hh. destruct (s_conjugate_form n a _ W Hc) as (d & E1 & E2). pose proof W as (Lg & Ll & Hl & Hw & (El & Eb & Hb & Hwf)). rewrite Ed in E2.
  destruct (conjugate_base_fenchel n (gmode (spen a) (Lagrange lam)) h (m_base (s_moded a)) Hwf Hc) as (d' & E & Wd & F).
  { intros u Lu. apply gauge_ball_fenchel; auto. apply sparse_gauge; auto. }
  assert (d' = d) by congruence. subst d'. eexists. split; [exact E2|]. cbn [s_dual s_moded m_base]. split; auto.
  split; [repeat (split; auto); cbn; auto using nonneg_filled|]. split; [unfold spen; cbn [s_groups s_lasso s_weights]; apply spen_filled|]. exact F.
Qed.
Theorem sgl_conjugate_dual : forall n a b h, sgl_wf n a (Bound b) -> s_dual a = true -> coef (b_quadratic (m_base (s_moded a))) = 0 ->
  indicates n (dual_ball n (spen a) b) h ->
  exists e, sgl_conjugate a = Some (Ok e) /\ s_dual e = false /\ sgl_wf n e (Lagrange b) /\ spen e = spen a /\
    forall u, length u = n -> is_fenchel n (base_doc n h (m_base (s_moded a))) u (moded_doc n (spen e) (s_moded e) (Lagrange b) u).
Proof.
  intros n a b h W Ed Hc Hh. destruct (s_conjugate_form n a _ W Hc) as (d & E1 & E2). pose proof W as (Lg & Ll & Hl & Hw & (El & Eb & Hb & Hwf)). rewrite Ed in E2. cbn in Hb.
  assert (SP : spen (mk_sgl (negb true) (s_groups a) (s_lasso a) (filled (s_weights a) (s_groups a)) (mk_moded (lag_of (dual_mode (Bound b))) (bnd_of (dual_mode (Bound b))) d)) = spen a) by (unfold spen; cbn [s_groups s_lasso s_weights]; apply spen_filled).
  destruct (conjugate_base_fenchel n h (gmode (spen a) (Lagrange b)) (m_base (s_moded a)) Hwf Hc) as (d' & E & Wd & F).
  { intros u Lu. destruct (gfun_polar (s_groups a) (s_weights a) n Lg Hw) as [Q1 Q2].
    apply (sum_ball_fenchel n (wl1 (s_lasso a)) (wsup (map invw (s_lasso a))) (gfun false (s_groups a) (s_weights a)) (gfun true (s_groups a) (s_weights a))); auto using w_polar, w_polar_rev. }
  assert (d' = d) by congruence. subst d'. eexists. split; [exact E2|]. rewrite SP. cbn [s_dual s_moded m_base]. split; auto.
  split; [repeat (split; auto); cbn; auto using nonneg_filled|]. split; auto.
Qed.
