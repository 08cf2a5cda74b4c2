(** nesta: the values of its rounds and the stopping test by values. *)
From Coq Require Import Reals List Lra Lia Arith Bool.
From Verif Require Import M_affine SpecAffine P_affine M_loss M_smooth SpecSmooth P_smooth Vec Spec SpecConvex M_quad P_quad P_calc P_sep P_loss M_prox M_semi SpecAtom P_semi P_conj M_shift SpecBase P_shift M_afatom SpecCone M_cones P_cones M_fista SpecFista P_fista P_fista2 M_problem SpecProblem P_problem P_separable P_problem2 M_sconj SpecSconj P_sconj P_block3 P_path2 P_admm SpecNewton M_newton P_newton P_newton2 P_newton3 M_nesta SpecNesta P_nesta P_nesta2 P_nesta3.
Import ListNotations.
Local Open Scope R_scope.

Section Values.
Variables (n : nat) (T : transform) (P G h : vec -> ext).
Hypothesis AD : true_adjoint T.
Hypothesis TI : t_in T = n.
Hypothesis CP : convex_ext n P.
Hypothesis CG : convex_ext (t_out T) G.
Let m := t_out T.

Lemma worth_exists : forall r, exact_round n T P G r -> exists w, worth n T P G r w.
Proof. intros r (S & HS & (L & (w & Ew) & _) & _). exists w, S. auto. Qed.
Lemma worth_value : forall r w p g, exact_round n T P G r -> 0 < r_eps r -> length (r_center r) = m -> worth n T P G r w -> P (r_primal r) = Fin p -> G (r_dual r) = Fin g ->
  w = p + dot (t_lin T (r_primal r)) (r_dual r) - g - r_eps r / 2 * sqn (vsub (r_dual r) (r_center r)).
Proof.
  intros r w p g ER HE Lc (S & HS & Ew) Ep Eg. assert (ER' := ER). destruct ER' as (S' & _ & (Lx & _) & MU). assert (Lv : length (t_lin T (r_primal r)) = m) by (apply AD; congruence).
  assert (V := sup_value m G (r_eps r) (r_center r) _ _ CG HE Lc Lv MU S HS g Eg). rewrite Ep in Ew. cbn in Ew. injection Ew as <-. rewrite V. ring.
Qed.
Lemma worth_unique : forall r w w', exact_round n T P G r -> 0 < r_eps r -> length (r_center r) = m -> worth n T P G r w -> worth n T P G r w' -> w = w'.
Proof. intros r w w' ER HE Lc W W'. destruct (round_parts n T P G r ER) as (_ & _ & (p & Ep) & (g & Eg)). rewrite (worth_value r w p g), (worth_value r w' p g); auto. Qed.
(** From below, against any u *)
Lemma worth_below : forall r w p u g, exact_round n T P G r -> worth n T P G r w -> P (r_primal r) = Fin p -> length u = m -> G u = Fin g ->
  p + dot (t_lin T (r_primal r)) u - g - r_eps r / 2 * sqn (vsub u (r_center r)) <= w.
Proof.
  intros r w p u g ER (S & HS & Ew) Ep Lu Eg. destruct ER as (_ & _ & (Lx & _) & _). assert (Lv : length (t_lin T (r_primal r)) = m) by (apply AD; congruence). destruct (HS _ Lv) as (A & _).
  specialize (A u (g + r_eps r / 2 * sqn (vsub u (r_center r))) Lu). unfold regularized in A. rewrite Eg in A. specialize (A eq_refl). rewrite Ep in Ew. cbn in Ew. injection Ew as <-. lra.
Qed.
(** Two rounds in a row, same eps *)
Section Two.
Variables (r0 r : round) (rho : R).
Hypothesis E0 : exact_round n T P G r0.
Hypothesis E1 : exact_round n T P G r.
Hypothesis HE : 0 < r_eps r0.
Hypothesis Eps : r_eps r = r_eps r0.
Hypothesis L0 : length (r_center r0) = m.
Hypothesis Ec : r_center r = vadd (r_center r0) (vscal rho (vsub (r_dual r0) (r_center r0))).
Lemma L1 : length (r_center r) = m.
Proof. destruct (round_parts n T P G r0 E0) as (_ & Lu & _ & _). fold m in Lu. rewrite Ec. auto with vl. Qed.
Theorem values_gain : forall w0 w, worth n T P G r0 w0 -> worth n T P G r w -> w0 + r_eps r0 / 2 * (rho * (2 - rho)) * sqn (vsub (r_dual r0) (r_center r0)) <= w.
Proof.
  intros w0 w W0 W. destruct (round_parts n T P G r0 E0) as (Lx0 & Lu0 & (p0 & Ep0) & (g0 & Eg0)). destruct (round_parts n T P G r E1) as (Lx & Lu & (p & Ep) & (g & Eg)). fold m in Lu0, Lu.
  rewrite (worth_value r0 w0 p0 g0 E0 HE L0 W0 Ep0 Eg0). assert (B := worth_below r w p (r_dual r0) g0 E1 W Ep Lu0 Eg0). assert (A := round_primal n T P G AD TI CP CG r0 p0 (r_primal r) p E0 HE L0 Lx Ep0 Ep).
  rewrite (dot_comm (r_dual r0) (t_lin T (r_primal r0))), (dot_comm (r_dual r0) (t_lin T (r_primal r))) in A. rewrite Eps in B.
  assert (Q : sqn (vsub (r_dual r0) (r_center r)) = (1 - rho) * (1 - rho) * sqn (vsub (r_dual r0) (r_center r0))). { rewrite Ec. rewrite <- sqn_scal. f_equal. clear - Lu0 L0. revert Lu0 L0. generalize (r_dual r0), (r_center r0), m. unfold vsub, vadd, vscal. intros u. induction u as [|a u IH]; intros [|b y] [|k] A B; cbn in *; try discriminate; auto. f_equal; [ring|apply (IH y k); congruence]. }
  rewrite Q in B. lra.
Qed.
Theorem residual_falls : 0 < rho <= 2 -> norm (vsub (r_dual r) (r_center r)) <= norm (vsub (r_dual r0) (r_center r0)).
Proof.
  intros Hr. destruct (round_parts n T P G r0 E0) as (Lx0 & Lu0 & (p0 & Ep0) & (g0 & Eg0)). destruct (round_parts n T P G r E1) as (Lx & Lu & (p & Ep) & (g & Eg)). fold m in Lu0, Lu. assert (Lc := L1). assert (HE' : 0 < r_eps r) by lra.
  assert (A0 := round_primal n T P G AD TI CP CG r0 p0 (r_primal r) p E0 HE L0 Lx Ep0 Ep). assert (A1 := round_primal n T P G AD TI CP CG r p (r_primal r0) p0 E1 HE' Lc Lx0 Ep Ep0).
  assert (Lv0 : length (t_lin T (r_primal r0)) = m) by (apply AD; congruence). assert (Lv : length (t_lin T (r_primal r)) = m) by (apply AD; congruence).
  destruct E0 as (S0 & _ & _ & M0). destruct E1 as (S1 & _ & _ & M1).
  assert (B0 := sup_variational m G (r_eps r0) (r_center r0) _ _ CG HE L0 Lv0 M0 g0 (r_dual r) g Lu Eg0 Eg). assert (B1 := sup_variational m G (r_eps r) (r_center r) _ _ CG HE' Lc Lv M1 g (r_dual r0) g0 Lu0 Eg Eg0). rewrite Eps in B1.
  set (a := vsub (r_dual r0) (r_center r0)) in *. set (b := vsub (r_dual r) (r_center r)) in *. assert (La : length a = m) by (unfold a; auto with vl). assert (Lb : length b = m) by (unfold b; auto with vl).
  assert (D : vsub (r_dual r) (r_dual r0) = vadd (vsub b a) (vscal rho a)). { unfold b. rewrite Ec. fold a. unfold a. clear - Lu Lu0 L0. revert Lu Lu0 L0. generalize (r_dual r), (r_dual r0), (r_center r0), m. unfold vsub, vadd, vscal. intros u. induction u as [|c u IH]; intros [|d v] [|e y] [|k] A B C; cbn in *; try discriminate; auto. f_equal; [ring|apply (IH v y k); congruence]. }
  assert (D' : vsub (r_dual r0) (r_dual r) = vopp (vadd (vsub b a) (vscal rho a))). { rewrite <- D. clear - Lu Lu0. revert Lu Lu0. generalize (r_dual r), (r_dual r0), m. unfold vsub, vopp. intros u. induction u as [|c u IH]; intros [|d v] [|k] A B; cbn in *; try discriminate; auto. f_equal; [ring|apply (IH v k); congruence]. }
  assert (X : dot (t_lin T (r_primal r0)) (vsub (r_dual r) (r_dual r0)) - dot (t_lin T (r_primal r)) (vsub (r_dual r) (r_dual r0)) >= 0). { rewrite !dot_sub_r by vl m. rewrite (dot_comm (r_dual r0) (t_lin T (r_primal r0))), (dot_comm (r_dual r0) (t_lin T (r_primal r))), (dot_comm (r_dual r) (t_lin T (r_primal r0))), (dot_comm (r_dual r) (t_lin T (r_primal r))) in *. lra. }
  rewrite D' in B1. rewrite D in B0, X. rewrite dot_opp_r in B1. rewrite !dot_sub_l, !dot_scal_l in B0, B1 by vl m.
  assert (Z : 0 <= dot a (vadd (vsub b a) (vscal rho a)) - dot b (vadd (vsub b a) (vscal rho a))). { apply Rmult_le_reg_l with (r_eps r0); auto. lra. }
  rewrite !dot_add_r, !dot_sub_r, !dot_scal_r in Z by vl m. assert (CS : 2 * dot a b <= sqn a + sqn b). { assert (Q := sqn_nonneg (vsub a b)). rewrite sqn_sub in Q by vl m. lra. }
  rewrite (dot_comm b a) in Z. change (dot a a) with (sqn a) in Z. change (dot b b) with (sqn b) in Z. unfold norm. apply sqrt_le_1_alt. 
  assert (rho * sqn b <= rho * sqn a); [|apply Rmult_le_reg_l with rho; lra].
  assert ((2 - rho) * (2 * dot a b) <= (2 - rho) * (sqn a + sqn b)) by (apply Rmult_le_compat_l; lra). lra.
Qed.
End Two.
(** Between the optimum and the optimum less eps/2 |center - us|^2 *)
Theorem worth_range : forall r w xs us v, conjugates m h G -> exact_round n T P G r -> 0 < r_eps r -> length (r_center r) = m -> worth n T P G r w -> saddle_point n T P G xs us -> composed P h T xs = Fin v ->
  v - r_eps r / 2 * sqn (vsub us (r_center r)) <= w <= v.
Proof.
  intros r w xs us v HC ER HE Lc W ((Lxs & _ & MX) & (Lus & (a2 & Ea2) & MU)) Ev. destruct (G us) as [gs|] eqn:Egs; [|discriminate]. clear a2 Ea2. unfold composed in Ev. destruct (P xs) as [ps|] eqn:Eps; [|discriminate]. destruct (h (t_lin T xs)) as [hs|] eqn:Ehs; [|discriminate]. cbn in Ev. injection Ev as <-.
  destruct (round_parts n T P G r ER) as (Lx & Lu & (p & Ep) & (g & Eg)). fold m in Lu. assert (Lt : length (t_lin T xs) = m) by (apply AD; congruence). destruct HC as (_ & HC). specialize (HC _ Lt). rewrite Ehs in HC. destruct HC as (UP & LO).
  assert (K : hs <= dot (t_lin T xs) us - gs). { apply le_eps. intros e He. destruct (LO e He) as (z & gz & Lz & Ez & Hz). specialize (MU z Lz). cbv beta in MU. rewrite ?Egs, ?Ez in MU. cbn in MU. lra. }
  split.
  - assert (B := worth_below r w p us gs ER W Ep Lus Egs). specialize (MX (r_primal r) Lx). cbv beta in MX. rewrite ?Eps, ?Ep in MX. cbn in MX. rewrite (dot_comm us (t_lin T xs)), (dot_comm us (t_lin T (r_primal r))) in MX. lra.
  - rewrite (worth_value r w p g ER HE Lc W Ep Eg). assert (A := round_primal n T P G AD TI CP CG r p xs ps ER HE Lc Lxs Ep Eps). specialize (UP (r_dual r) g Lu Eg). rewrite (dot_comm (r_dual r) (t_lin T xs)), (dot_comm (r_dual r) (t_lin T (r_primal r))) in A. pose proof (sqn_nonneg (vsub (r_dual r) (r_center r))). nra.
Qed.
End Values.

Section ValueLoop.
Variables (run : solver) (N : nesta_args) (n : nat) (T : transform) (P h G : vec -> ext).
Hypothesis NF : nesta_for N n T P h.
Hypothesis HC : conjugates (t_out T) h G.
Hypothesis SV : solves_nesta run N n (t_out T).
Let m := t_out T.
Lemma nesta_pass_value : forall idx eps center carried, 0 < eps -> length center = m ->
  exists p a w, src_smoothed (na_source N) (mk_iq eps (FVec center) (FScal 0) 0) = Ok p /\ run idx (nesta_problem N p) (nesta_start N idx carried) (Rmax eps (na_tol N)) = Ok a /\
    let r := mk_round idx eps center (an_coefs a) (stored p a) (Rmax eps (na_tol N)) in exact_round n T P G r /\ nesta_value N p (an_coefs a) = Fin w /\ worth n T P G r w.
Proof.
  intros idx eps center carried HE Lc. destruct (nesta_pass run N n T P h G NF HC SV idx eps center carried HE Lc) as (p & a & Ep & Ea & ER). exists p, a.
  destruct (nesta_exact N n T P h G eps center NF HC HE Lc) as (p' & f & g & fs & hs & Ep' & SC & Ei & EX & EO). change (squad eps center) with (mk_iq eps (FVec center) (FScal 0) 0) in Ep'. rewrite Ep in Ep'. injection Ep' as <-.
  destruct (SV idx eps center p (nesta_start N idx carried) fs hs HE Lc Ep EX) as (a' & Ea' & Ma & At). rewrite Ea in Ea'. injection Ea' as <-. destruct Ma as (Lx & (w & Ew) & _). exists w. split; [exact Ep|]. split; [exact Ea|]. split; [exact ER|]. split.
  - unfold objective in Ew. destruct (hs (an_coefs a)) as [hr|] eqn:Eh; [|discriminate]. cbn in Ew. assert (K1 := ex_smooth _ _ _ _ EX _ Lx). assert (K2 := ex_nonsmooth _ _ _ _ EX _ hr false Lx Eh). cbn [nesta_problem c_smooth c_nonsmooth] in K1, K2. unfold nesta_value. unfold inner_nonsmooth in *. rewrite !(no_quad_func n) by auto. rewrite !(no_quad_func n) in K2 by auto.
    destruct (or_inf (o_value (nesta_atom N) (an_coefs a) false)) as [ov|]; [|discriminate]. cbn [ext_add] in *. injection K1 as K1. injection K2 as K2. injection Ew as Ew. f_equal. lra.
  - exists f. cbn [r_eps r_center r_primal]. split; [|rewrite <- EO; auto]. intros v Lv. destruct SC as (AT & _). destruct (AT v Lv) as (Fn & _). eapply is_fenchel_ext; [|exact Fn]. intros u Lu. apply squad_reg.
Qed.
Definition pairs_ok (rs : list round) (broke : bool) : Prop := forall a r0 r b, rs = a ++ r0 :: r :: b -> (steady N n T P G r0 r <-> b = [] /\ broke = true).
Lemma pairs_cons : forall r0 r rs broke, pairs_ok (r :: rs) broke -> (steady N n T P G r0 r <-> rs = [] /\ broke = true) -> pairs_ok (r0 :: r :: rs) broke.
Proof. intros r0 r rs broke H K [|c a] r1 r2 b E; cbn in E; [injection E as <- <- <-; exact K|]. injection E as <- E. apply (H a r1 r2 b). exact E. Qed.
Lemma pairs_one : forall r broke, pairs_ok [r] broke.
Proof. intros r broke [|c [|d a]] r1 r2 b E; discriminate E. Qed.
Lemma values_loop : na_coef_stop N = false -> forall epsilon idx center carried value last pre o, (forall e, In e epsilon -> 0 < e) -> length center = m ->
  (pre = [] /\ value = PInf \/ exists r0 w0, pre = [r0] /\ value = Fin w0 /\ worth n T P G r0 w0 /\ exact_round n T P G r0 /\ 0 < r_eps r0 /\ length (r_center r0) = m) ->
  nesta_loop run N idx epsilon center carried value last = Ok o -> (epsilon = [] -> o_broke o = false /\ o_rounds o = []) /\ pairs_ok (pre ++ o_rounds o) (o_broke o) /\ (o_broke o = true -> (2 <= length (pre ++ o_rounds o))%nat) /\ (epsilon <> [] -> o_rounds o <> []).
Proof.
  intros CS. destruct (nesta_convex N n T P h G NF HC) as (CP & CG). destruct (stands_map _ _ _ (nf_source _ _ _ _ _ NF)) as (TA & _). assert (TI := nf_in _ _ _ _ _ NF).
  induction epsilon as [|eps rest IH]; intros idx center carried value last pre o HE Lc HP E.
  - cbn [nesta_loop] in E. destruct last as [x|]; [|discriminate]. injection E as <-. cbn [o_broke o_rounds]. split; [auto|]. rewrite app_nil_r. split; [|split; [discriminate|tauto]]. destruct HP as [(-> & _)|(r0 & w0 & -> & _)]; [intros [|? [|? ?]] ? ? ? E; discriminate E|apply pairs_one].
  - cbn [nesta_loop] in E. destruct (nesta_pass_value idx eps center carried (HE eps (or_introl eq_refl)) Lc) as (p & a & w & Ep & Ea & ER & Ev & W). rewrite Ep in E. cbn [rbind] in E. rewrite Ea in E. cbn [rbind] in E. set (r := mk_round idx eps center (an_coefs a) (stored p a) (Rmax eps (na_tol N))) in *.
    rewrite CS, Ev in E. assert (Lg : length (stored p a) = m) by apply (round_len n T P G r ER).
    assert (ST : forall r0, pre = [r0] -> (andb (values_close (na_coef_tol N) (Fin w) value) (Nat.leb (na_min_iters N) idx) = true <-> steady N n T P G r0 r)).
    { intros r0 ->. destruct HP as [(K & _)|(r1 & w0 & K & -> & W0 & X0 & E0 & L0)]; [discriminate|]. injection K as <-. unfold values_close. rewrite andb_true_iff, Nat.leb_le. split.
      - intros (A & B). destruct (Rlt_dec _ _) as [Q|]; [|discriminate]. exists w0, w. auto.
      - intros (w1 & w2 & W1 & W2 & Q & B). rewrite (worth_unique n T P G TA TI CG r0 w0 w1 X0 E0 L0 W0 W1), (worth_unique n T P G TA TI CG r w w2 ER (HE eps (or_introl eq_refl)) Lc W W2). destruct (Rlt_dec _ _); auto. }
    assert (S0 : pre = [] -> andb (values_close (na_coef_tol N) (Fin w) value) (Nat.leb (na_min_iters N) idx) = false). { intros ->. destruct HP as [(_ & ->)|(r1 & w0 & K & _)]; [reflexivity|discriminate]. }
    split; [discriminate|]. destruct (andb _ _) eqn:Eb.
    + injection E as <-. cbn [o_broke o_rounds]. destruct pre as [|r0 pre]; [specialize (S0 eq_refl); discriminate|]. assert (pre = []) by (destruct HP as [(K & _)|(r1 & w0 & K & _)]; [discriminate|congruence]). subst pre. cbn [app]. split; [|split; [cbn; lia|discriminate]]. apply pairs_cons; [apply pairs_one|]. specialize (ST r0 eq_refl). tauto.
    + rewrite extrapolate_relax in E by congruence. set (c' := vadd center (vscal (1 + INR idx / (INR idx + 3)) (vsub (stored p a) center))) in *. assert (Lc' : length c' = m) by (unfold c'; auto with vl).
      destruct (nesta_loop run N (S idx) rest c' (an_prox a) (Fin w) (Some (an_coefs a))) as [o'|] eqn:El; [|discriminate]. cbn [rmap] in E. injection E as <-. cbn [o_broke o_rounds].
      destruct (IH (S idx) c' (an_prox a) (Fin w) (Some (an_coefs a)) [r] o') as (I1 & I2 & I3 & I4); auto; [intros e He; apply HE; right; auto|right; exists r, w; repeat split; auto; apply HE; left; auto|]. cbn [app] in I2, I3.
      assert (RB : rest = [] -> o_broke o' = false) by (intros Hr; apply I1; auto).
      destruct pre as [|r0 pre]; [cbn [app]; split; [exact I2|split; [exact I3|discriminate]]|]. assert (pre = []) by (destruct HP as [(K & _)|(r1 & w0 & K & _)]; [discriminate|congruence]). subst pre. cbn [app]. split; [|split; [cbn; lia|discriminate]]. apply pairs_cons; [exact I2|]. specialize (ST r0 eq_refl). split.
      * intros Hs. apply ST in Hs. discriminate.
      * intros (Hn & Hb). destruct rest as [|e2 rest]; [rewrite RB in Hb; [discriminate|auto]|]. elim I4; auto. discriminate.
Qed.
(** Without coef_stop: the loop ends at the first round, not before round number min_iters, whose optimal value is close to that of the round before. *)
Theorem nesta_values : na_coef_stop N = false -> (forall e, In e (schedule (na_epsilon N) (na_max_iters N)) -> 0 < e) -> (forall y, na_dual N = Some y -> length y = m) -> forall o, nesta run N = Ok o ->
  (forall a r0 r b, o_rounds o = a ++ r0 :: r :: b -> (steady N n T P G r0 r <-> b = [] /\ o_broke o = true)) /\ (o_broke o = true -> (2 <= length (o_rounds o))%nat).
Proof.
  intros CS HE Hy o E. unfold nesta in E. destruct (stands_map _ _ _ (nf_source _ _ _ _ _ NF)) as (_ & _ & _ & Ed). rewrite Ed in E. cbn [rbind] in E. eapply (values_loop CS) with (pre := []) in E; auto.
  - destruct E as (_ & E2 & E3 & _). split; [exact E2|exact E3].
  - destruct (na_dual N) as [y|]; [apply Hy; auto|apply zeros_length].
Qed.
End ValueLoop.

Lemma linked_pair : forall a first y r0 r b, linked first y (a ++ r0 :: r :: b) -> r_idx r = S (r_idx r0) /\ r_center r = vadd (r_center r0) (vscal (1 + INR (r_idx r0) / (INR (r_idx r0) + 3)) (vsub (r_dual r0) (r_center r0))).
Proof. induction a as [|c a IH]; intros first y r0 r b L; cbn [app linked] in L; [destruct L as (<- & <- & -> & -> & _); auto|]. destruct L as (_ & _ & L). eapply IH; eauto. Qed.
Lemma rho_range : forall k, 0 < 1 + INR k / (INR k + 3) <= 2.
Proof. intros k. pose proof (pos_INR k). assert (0 <= INR k / (INR k + 3)) by (apply Rmult_le_pos; [auto|apply Rlt_le, Rinv_0_lt_compat; lra]). assert (INR k / (INR k + 3) <= 1) by (apply Rmult_le_reg_r with (INR k + 3); [lra|]; unfold Rdiv; rewrite Rmult_assoc, Rinv_l by lra; lra). lra. Qed.
Section ValueEnd.
Variables (N : nesta_args) (n : nat) (T : transform) (P h G : vec -> ext) (eps : R).
Hypothesis NF : nesta_for N n T P h.
Hypothesis HC : conjugates (t_out T) h G.
Hypothesis HE : 0 < eps.
Let m := t_out T.
(** Two rounds in a row of a run with one eps *)
Theorem pair_gain : forall first y rs a r0 r b w0 w, linked first y rs -> Forall (exact_round n T P G) rs -> Forall (fun r => r_eps r = eps) rs -> length y = m -> rs = a ++ r0 :: r :: b -> worth n T P G r0 w0 -> worth n T P G r w ->
  w0 + 3 * eps / (2 * (INR (r_idx r0) + 3)) * sqn (vsub (r_dual r0) (r_center r0)) <= w /\ norm (vsub (r_dual r) (r_center r)) <= norm (vsub (r_dual r0) (r_center r0)).
Proof.
  intros first y rs a r0 r b w0 w L FE FP Ly E W0 W. destruct (nesta_convex N n T P h G NF HC) as (CP & CG). destruct (stands_map _ _ _ (nf_source _ _ _ _ _ NF)) as (TA & _). assert (TI := nf_in _ _ _ _ _ NF).
  assert (FL := linked_len n T P G rs first y Ly L FE). assert (I0 : In r0 rs) by (rewrite E; apply in_or_app; right; left; auto). assert (I1 : In r rs) by (rewrite E; apply in_or_app; right; right; left; auto). rewrite Forall_forall in *.
  rewrite E in L. destruct (linked_pair a first y r0 r b L) as (_ & Ec). assert (E0 : r_eps r0 = eps) by auto. assert (E1 : r_eps r = r_eps r0) by (rewrite E0; auto). assert (HP : 0 < r_eps r0) by lra.
  split; [|apply (residual_falls n T P G TA TI CP CG r0 r _ (FE _ I0) (FE _ I1) HP E1 (FL _ I0) Ec); apply rho_range].
  assert (V := values_gain n T P G TA TI CP CG r0 r _ (FE _ I0) (FE _ I1) HP E1 (FL _ I0) Ec w0 w W0 W). destruct (weight_range (r_idx r0)) as (_ & Wr). rewrite E0 in V. eapply Rle_trans; [|exact V]. apply Rplus_le_compat_l, Rmult_le_compat_r; [apply sqn_nonneg|].
  replace (3 * eps / (2 * (INR (r_idx r0) + 3))) with (eps / 2 * (3 / (INR (r_idx r0) + 3))) by (field; pose proof (pos_INR (r_idx r0)); lra). apply Rmult_le_compat_l; lra.
Qed.
Lemma pair_rises : forall first y rs a r0 r b w0 w, linked first y rs -> Forall (exact_round n T P G) rs -> Forall (fun r => r_eps r = eps) rs -> length y = m -> rs = a ++ r0 :: r :: b -> worth n T P G r0 w0 -> worth n T P G r w -> w0 <= w.
Proof.
  intros first y rs a r0 r b w0 w L FE FP Ly E W0 W. destruct (pair_gain first y rs a r0 r b w0 w L FE FP Ly E W0 W) as (V & _). assert (0 <= 3 * eps / (2 * (INR (r_idx r0) + 3)) * sqn (vsub (r_dual r0) (r_center r0))); [|lra].
  apply Rmult_le_pos; [|apply sqn_nonneg]. apply Rmult_le_pos; [lra|apply Rlt_le, Rinv_0_lt_compat]. pose proof (pos_INR (r_idx r0)). lra.
Qed.
Lemma climb : 0 <= na_coef_tol N -> forall rest first y r0 w0, linked first y (r0 :: rest) -> Forall (exact_round n T P G) (r0 :: rest) -> Forall (fun r => r_eps r = eps) (r0 :: rest) -> length y = m ->
  (forall a r1 r b, r0 :: rest = a ++ r1 :: r :: b -> ~ steady N n T P G r1 r) -> worth n T P G r0 w0 ->
  exists rl wl, In rl (r0 :: rest) /\ worth n T P G rl wl /\ w0 + na_coef_tol N * (INR (first + length rest) - INR (Nat.max first (na_min_iters N))) <= wl.
Proof.
  intros Ht. induction rest as [|r rest IH]; intros first y r0 w0 L FE FP Ly NS W0.
  - exists r0, w0. split; [left; auto|]. split; [auto|]. cbn [length]. rewrite Nat.add_0_r. assert (INR first <= INR (Nat.max first (na_min_iters N))) by (apply le_INR; lia). nra.
  - assert (X1 : exact_round n T P G r) by (inversion FE as [|? ? _ F]; inversion F; auto). destruct (worth_exists n T P G r X1) as (w & W).
    assert (RS := pair_rises first y _ [] r0 r rest w0 w L FE FP Ly eq_refl W0 W). assert (NS1 := NS [] r0 r rest eq_refl). assert (Lx : length (r_dual r0) = m) by (inversion FE; subst; eapply round_len; eauto).
    assert (Ei : r_idx r = S first) by (cbn [linked] in L; tauto).
    assert (L2 : linked (S first) (vadd y (vscal (1 + INR first / (INR first + 3)) (vsub (r_dual r0) y))) (r :: rest)) by (cbn [linked] in L |- *; tauto).
    destruct (IH (S first) _ r w L2) as (rl & wl & Il & Wl & V); [inversion FE; auto|inversion FP; auto|auto with vl| |auto|].
    { intros a r1 r2 b E. apply (NS (r0 :: a) r1 r2 b). cbn. f_equal. exact E. }
    exists rl, wl. split; [right; auto|]. split; [auto|]. cbn [length]. replace (first + S (length rest))%nat with (S first + length rest)%nat by lia. eapply Rle_trans; [|exact V].
    destruct (le_dec (na_min_iters N) (S first)) as [Hm|Hm].
    + assert (G1 : na_coef_tol N <= w - w0). { apply Rnot_lt_le. intros K. apply NS1. exists w0, w. split; [auto|]. split; [auto|]. split; [|rewrite Ei; auto]. rewrite Rabs_pos_eq by lra. pose proof (Rabs_pos w). nra. }
      assert (A1 : INR (Nat.max (S first) (na_min_iters N)) = INR first + 1) by (rewrite Nat.max_l by lia; apply S_INR). assert (A2 : INR first <= INR (Nat.max first (na_min_iters N))) by (apply le_INR; lia). rewrite A1. nra.
    + replace (Nat.max (S first) (na_min_iters N)) with (Nat.max first (na_min_iters N)) by lia. lra.
Qed.
End ValueEnd.
(** A whole call that stops by values *)
Theorem nesta_value_end : forall run N n T P h G y0 xs us v B eps, nesta_for N n T P h -> conjugates (t_out T) h G -> solves_nesta run N n (t_out T) -> saddle_point n T P G xs us -> composed P h T xs = Fin v -> lipschitz_fun (t_out T) h B -> 0 <= B ->
  0 < eps -> (forall e, In e (schedule (na_epsilon N) (na_max_iters N)) -> e = eps) -> match na_dual N with Some y => y0 = y /\ length y = t_out T | None => y0 = zeros (t_out T) end -> na_coef_stop N = false -> 0 < na_coef_tol N ->
  eps / 2 * sqn (vsub us y0) < na_coef_tol N * (INR (length (schedule (na_epsilon N) (na_max_iters N))) - 1 - INR (na_min_iters N)) ->
  exists o k w c, nesta run N = Ok o /\ o_broke o = true /\ length (o_rounds o) = (k + 2)%nat /\ v - eps / 2 * sqn (vsub us y0) <= w <= v /\
    composed P h T (o_primal o) = Fin c /\ v <= c <= v + 2 * B * sqrt (2 * eps * (INR k + 3) / 3 * (na_coef_tol N * (Rabs w + 1))).
Proof.
  intros run N n T P h G y0 xs us v B eps NF HC SV SP Ev HL HB HE Es Hy CS Ht HK. set (sch := schedule (na_epsilon N) (na_max_iters N)) in *.
  assert (SE : forall e, In e sch -> 0 < e) by (intros e He; rewrite (Es e He); auto). assert (SQ : 0 <= eps / 2 * sqn (vsub us y0)) by (apply Rmult_le_pos; [lra|apply sqn_nonneg]). pose proof (pos_INR (na_min_iters N)).
  assert (NE : sch <> []). { intros E. rewrite E in HK. cbn [length INR] in HK. nra. }
  assert (Ly : length y0 = t_out T) by (destruct (na_dual N) as [y|]; [destruct Hy as (-> & L); exact L|subst; apply zeros_length]).
  destruct (nesta_convex N n T P h G NF HC) as (CP & CG). destruct (stands_map _ _ _ (nf_source _ _ _ _ _ NF)) as (TA & _). assert (TI := nf_in _ _ _ _ _ NF). assert (Lus : length us = t_out T) by apply SP.
  destruct (nesta_ran run N n T P h G NF HC SV y0 NE SE Hy) as (o & Eo & RN). assert (CL := closer N n T P h G NF HC y0 sch o xs us Ly SE RN SP). fold sch in RN. exists o.
  destruct (nesta_values run N n T P h G NF HC SV CS SE ltac:(intros y Hd; rewrite Hd in Hy; tauto) o Eo) as (PR & LB). destruct RN as [R1 R2 R3 R4 (rs & rl & Er & Epr & Ebr & _)].
  assert (FP : Forall (fun r => r_eps r = eps) (o_rounds o)). { rewrite Forall_forall. intros r Ir. apply Es. rewrite <- (firstn_skipn (length (o_rounds o)) sch). apply in_or_app. left. rewrite <- R3. apply in_map. exact Ir. }
  assert (FL := linked_len n T P G _ 0%nat y0 Ly R2 R1). assert (RG : forall r w, In r (o_rounds o) -> worth n T P G r w -> v - eps / 2 * sqn (vsub us y0) <= w <= v).
  { intros r w Ir W. rewrite Forall_forall in *. assert (Ee := FP r Ir). assert (Q := worth_range n T P G h TA TI CP CG r w xs us v HC (R1 r Ir) ltac:(rewrite Ee; auto) (FL r Ir) W SP Ev). rewrite Ee in Q. destruct CL as (_ & CL). try rewrite Forall_forall in CL. destruct (CL r Ir) as (C1 & _).
    assert (S1 : sqn (vsub us (r_center r)) <= sqn (vsub us y0)). { assert (Lc := FL r Ir). rewrite (sqn_vsub_sym us (r_center r)), (sqn_vsub_sym us y0) by congruence. rewrite <- !norm_sq. pose proof (norm_nonneg (vsub (r_center r) us)). nra. } nra. }
  assert (BK : o_broke o = true). { destruct (o_broke o) eqn:Eb; auto. exfalso. destruct Ebr as (EL & _). assert (NR : o_rounds o <> []) by (rewrite Er; intros K; symmetry in K; apply app_cons_not_nil in K; auto). destruct (o_rounds o) as [|r0 rest] eqn:Ero; [tauto|]. destruct (worth_exists n T P G r0 ltac:(inversion R1; auto)) as (w0 & W0).
    destruct (climb N n T P h G eps NF HC HE ltac:(lra) rest 0 y0 r0 w0 R2 R1 FP Ly) as (r & w & Ir & W & V); auto. { intros a r1 r b E K. apply PR in E. apply E in K. destruct K as (_ & K). discriminate. }
    assert (Q0 := RG r0 w0 (or_introl eq_refl) W0). assert (Q1 := RG r w Ir W). cbn [Nat.max] in V. assert (EK : INR (length sch) - 1 = INR (0 + length rest)) by (rewrite <- EL; cbn [length plus]; rewrite S_INR; ring). rewrite <- EK in V. lra. }
  specialize (LB BK). destruct (exists_last (l := rs)) as (a & r0 & Ea); [intros ->; rewrite Er in LB; cbn in LB; lia|]. subst rs. rewrite <- app_assoc in Er. cbn [app] in Er. assert (St := proj2 (PR a r0 rl [] Er) (Logic.conj eq_refl BK)). destruct St as (w0 & w & W0 & W & Q & _).
  assert (Il : In rl (o_rounds o)) by (rewrite Er; apply in_or_app; right; right; left; auto).
  destruct (pair_gain N n T P h G eps NF HC HE 0 y0 _ a r0 rl [] w0 w R2 R1 FP Ly Er W0 W) as (V & RF).
  assert (Ek : r_idx r0 = length a). { clear - R2 Er. rewrite Er in R2. clear Er. change (length a) with (0 + length a)%nat. revert R2. generalize 0%nat, y0. induction a as [|c a IH]; intros k y L; cbn [app linked] in L; [destruct L as (-> & _); cbn; lia|]. destruct L as (_ & _ & L). rewrite (IH _ _ L). cbn. lia. } rewrite Ek in V.
  destruct (round_suboptimal n T P G h TA TI CP CG B rl xs HC HL HB ltac:(rewrite Forall_forall in R1; auto) ltac:(rewrite Forall_forall in FP; rewrite (FP rl Il); auto) ltac:(rewrite Forall_forall in FL; auto) ltac:(apply SP)) as (_ & VS).
  rewrite Ev in VS. cbn [ext_add] in VS. destruct (composed P h T (r_primal rl)) as [c|] eqn:Ec; [|destruct VS]. cbn [ext_le] in VS. exists (length a), w, c. split; [exact Eo|]. split; [exact BK|]. split; [rewrite Er, app_length; reflexivity|]. split; [apply (RG rl); auto|]. split; [rewrite Epr; exact Ec|].
  assert (OP := saddle_solves n T P G h TA TI xs us HC SP). split; [destruct OP as (_ & _ & OP); specialize (OP (r_primal rl)); rewrite Ev, Ec in OP; apply OP; rewrite Forall_forall in R1; destruct (R1 rl Il) as (S1 & _ & (L1 & _) & _); exact L1|].
  eapply Rle_trans; [exact VS|]. rewrite Forall_forall in FP. rewrite (FP rl Il). apply Rplus_le_compat_l. rewrite !Rmult_assoc. apply Rmult_le_compat_l; [lra|]. apply Rmult_le_compat_l; [auto|].
  set (d := norm (vsub (r_dual rl) (r_center rl))) in *. assert (Hd : 0 <= d) by apply norm_nonneg. set (d0 := norm (vsub (r_dual r0) (r_center r0))) in *. rewrite <- norm_sq in V. fold d0 in V. set (k := INR (length a)) in *. assert (Hk : 0 <= k) by apply pos_INR. set (t := na_coef_tol N * (Rabs w + 1)) in *.
  assert (HQ : w - w0 < t) by (pose proof (Rle_abs (w - w0)); lra). assert (HG : 3 * eps / (2 * (k + 3)) * (d0 * d0) <= t) by lra.
  replace (eps * d) with (sqrt ((eps * d) * (eps * d))) by (apply sqrt_square, Rmult_le_pos; lra). apply sqrt_le_1_alt. assert (d * d <= d0 * d0) by nra.
  assert (K3 : eps * (d0 * d0) <= 2 * (k + 3) / 3 * t). { apply Rmult_le_reg_l with (3 / (2 * (k + 3))); [apply Rdiv_lt_0_compat; lra|]. replace (3 / (2 * (k + 3)) * (2 * (k + 3) / 3 * t)) with t by (field; lra). replace (3 / (2 * (k + 3)) * (eps * (d0 * d0))) with (3 * eps / (2 * (k + 3)) * (d0 * d0)) by (field; lra). exact HG. }
  apply Rle_trans with (eps * (2 * (k + 3) / 3 * t)); [|apply Req_le; unfold t; field]. replace (eps * d * (eps * d)) with (eps * (eps * (d * d))) by ring. apply Rmult_le_compat_l; [lra|]. eapply Rle_trans; [|exact K3]. apply Rmult_le_compat_l; lra.
Qed.
