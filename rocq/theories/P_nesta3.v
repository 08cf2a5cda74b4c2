(** The loop of nesta with an exact solver. *)
From Coq Require Import Reals List Lra Lia Arith Bool.
From Verif Require Import M_affine SpecAffine P_affine M_loss M_smooth SpecSmooth P_smooth Vec Spec SpecConvex M_quad P_quad P_calc P_sep P_loss M_prox M_semi SpecAtom P_semi P_conj M_shift SpecBase P_shift M_afatom SpecCone M_cones P_cones M_fista SpecFista M_problem SpecProblem P_problem M_sconj SpecSconj P_sconj P_block3 P_path2 P_admm M_nesta SpecNesta P_nesta P_nesta2.
Import ListNotations.
Local Open Scope R_scope.

Lemma argmin_ext : forall n f g x, (forall z, length z = n -> f z = g z) -> is_argmin n f x -> is_argmin n g x.
Proof. intros n f g x E (L & (r & V) & M). split; auto. split; [exists r; rewrite <- E; auto|]. intros z Lz. rewrite <- !E by auto. auto. Qed.
Lemma eps_pos : forall (rs : list round) epsilon, map r_eps rs = firstn (length rs) epsilon -> (forall e, In e epsilon -> 0 < e) -> Forall (fun r => 0 < r_eps r) rs.
Proof.
  intros rs epsilon E HE. apply Forall_forall. intros r I. apply HE. rewrite <- (firstn_skipn (length rs)). apply in_or_app. left. rewrite <- E. apply in_map. exact I.
Qed.
Lemma linked_skip : forall k rs first y, linked first y rs -> (k <= length rs)%nat -> linked (first + k) (center_after first y (firstn k rs)) (skipn k rs) /\ linked first y (firstn k rs).
Proof.
  induction k as [|k IH]; intros rs first y LK Hk; [rewrite Nat.add_0_r; cbn; auto|]. destruct rs as [|r rs]; [cbn in Hk; lia|]. destruct LK as (A & B & LK). cbn [firstn skipn center_after linked]. destruct (IH rs (S first) _ LK) as (C & D); [cbn in Hk; lia|]. replace (first + S k)%nat with (S first + k)%nat by lia. auto.
Qed.
Lemma linked_idx : forall rs first y, linked first y rs -> Forall (fun r => (first <= r_idx r)%nat) rs.
Proof. induction rs as [|r rs IH]; intros first y LK; auto. destruct LK as (A & B & LK). constructor; [lia|]. apply IH in LK. eapply Forall_impl; [|exact LK]. cbv beta. intros; lia. Qed.
Section Loop.
Variables (run : solver) (N : nesta_args) (n : nat) (T : transform) (P h G : vec -> ext).
Hypothesis NF : nesta_for N n T P h.
Hypothesis HC : conjugates (t_out T) h G.
Hypothesis SV : solves_nesta run N n (t_out T).
Let m := t_out T.

Lemma nesta_convex : convex_ext n P /\ convex_ext (t_out T) G.
Proof.
  split; [|apply (fenchel_convex _ h); apply HC]. destruct NF as [SF TI Hn SH HL HQ (H & HA & HP)].
  assert (Q0 : good_quad n (quad_or_zero (na_quadratic N))). { unfold quad_or_zero. destruct (na_quadratic N) as [q|]; [apply HQ; auto|]. destruct (zero_quad_ok n). repeat split; auto; cbn; lra. }
  assert (CH : convex_ext n H). { destruct (na_atom N) as [A|]; [apply HA|]. intros x y t a b _ _ _ Ex Ey. rewrite HA in *. cbn. injection Ex as <-. injection Ey as <-. lra. }
  assert (CQ : convex_ext n (plus_quad n H (quad_or_zero (na_quadratic N)))) by (apply plus_quad_convex; auto; apply Q0).
  assert (CL : convex_on n (fun x => match na_loss N with Some a => meaning a x | None => 0 end)).
  { destruct (na_loss N) as [a|]; [|intros x y t _ _ _; lra]. specialize (HL a eq_refl). intros x y t Lx Ly Ht. assert (C := P_problem.smooth_convex n a HL x y t Lx Ly Ht). destruct HL as (W & _ & _ & Hx). assert (length (between x y t) = n) by auto with vl. rewrite !(P_smooth.smooth_value a n) in C by (auto; apply Hx; auto). exact C. }
  intros x y t a b Lx Ly Ht Ex Ey. assert (Lb : length (between x y t) = n) by auto with vl. rewrite HP in * by auto. destruct (plus_quad n H _ x) as [c|] eqn:E1; [|discriminate]. destruct (plus_quad n H _ y) as [d|] eqn:E2; [|discriminate]. cbn [ext_add] in Ex, Ey. injection Ex as <-. injection Ey as <-.
  specialize (CQ x y t c d Lx Ly Ht E1 E2). specialize (CL x y t Lx Ly Ht). cbv beta in CL. destruct (plus_quad n H _ (between x y t)) as [e|]; cbn in *; [|contradiction]. lra.
Qed.
(** One pass of the loop *)
Lemma nesta_pass : forall idx eps center carried, 0 < eps -> length center = m ->
  exists p a, src_smoothed (na_source N) (mk_iq eps (FVec center) (FScal 0) 0) = Ok p /\ run idx (nesta_problem N p) (nesta_start N idx carried) (Rmax eps (na_tol N)) = Ok a /\
    exact_round n T P G (mk_round idx eps center (an_coefs a) (stored p a) (Rmax eps (na_tol N))).
Proof.
  intros idx eps center carried HE Lc. destruct (nesta_exact N n T P h G eps center NF HC HE Lc) as (p & f & g & fs & hs & Ep & SC & Ei & EX & EO). exists p.
  destruct (SV idx eps center p (nesta_start N idx carried) fs hs HE Lc Ep EX) as (a & Ea & Ma & At). exists a. split; [exact Ep|]. split; [exact Ea|].
  destruct SC as (AT & _). assert (La : length (an_coefs a) = n) by apply Ma. assert (Es : stored p a = g (t_lin T (an_coefs a))). { unfold stored. rewrite At. destruct (snd p); apply Ei; auto. }
  destruct (stands_map _ _ _ (nf_source _ _ _ _ _ NF)) as (TA & _). assert (TI := nf_in _ _ _ _ _ NF). assert (Lt : length (t_lin T (an_coefs a)) = t_out T) by (apply TA; congruence).
  exists f. cbn [r_eps r_center r_primal r_dual]. split; [|split].
  - intros v Lv. destruct (AT v Lv) as (Fn & _). eapply is_fenchel_ext; [|exact Fn]. intros u Lu. apply squad_reg.
  - eapply argmin_ext; [|exact Ma]. intros z Lz. cbv beta. apply EO. exact Lz.
  - rewrite Es. destruct (AT _ Lt) as ((Up & _) & Lg & Eg & _). rewrite squad_reg in Eg. split; [exact Lg|]. split; [rewrite Eg; cbn; eauto|]. intros w Lw. cbv beta. rewrite Eg. destruct (regularized G eps center w) as [rw|] eqn:Ew; [|cbn; auto]. cbn [ext_add ext_le]. specialize (Up w rw Lw). rewrite squad_reg in Up. specialize (Up Ew). lra.
Qed.
Lemma round_len : forall r, exact_round n T P G r -> length (r_dual r) = m.
Proof. intros r (S & _ & _ & (L & _)). exact L. Qed.
Theorem nesta_loop_ran : forall epsilon idx center carried value last, epsilon <> [] -> (forall e, In e epsilon -> 0 < e) -> length center = m ->
  exists o, nesta_loop run N idx epsilon center carried value last = Ok o /\ ran N n T P G idx center epsilon o.
Proof.
  induction epsilon as [|eps rest IH]; intros idx center carried value last NE HE Lc; [tauto|]. clear NE. cbn [nesta_loop].
  destruct (nesta_pass idx eps center carried (HE eps (or_introl eq_refl)) Lc) as (p & a & Ep & Ea & ER). rewrite Ep. cbn [rbind]. rewrite Ea. cbn [rbind]. set (r := mk_round idx eps center (an_coefs a) (stored p a) (Rmax eps (na_tol N))) in *. assert (Lg : length (stored p a) = m) by apply (round_len r ER).
  assert (ST : na_coef_stop N = true -> (andb (if na_coef_stop N then coefs_close (na_coef_tol N) center (stored p a) else values_close (na_coef_tol N) (nesta_value N p (an_coefs a)) value) (Nat.leb (na_min_iters N) idx) = true <-> settled N r)).
  { intros ->. unfold coefs_close, settled. cbn [r_center r_dual r_idx r]. rewrite andb_true_iff, Nat.leb_le. destruct (Rlt_dec _ _); split; intros [A B]; auto; try discriminate; tauto. }
  assert (MI : andb (if na_coef_stop N then coefs_close (na_coef_tol N) center (stored p a) else values_close (na_coef_tol N) (nesta_value N p (an_coefs a)) value) (Nat.leb (na_min_iters N) idx) = true -> (na_min_iters N <= idx)%nat) by (rewrite andb_true_iff, Nat.leb_le; tauto).
  destruct (andb _ _) eqn:Eb.
  - eexists. split; [reflexivity|]. split; cbn [o_rounds o_broke o_primal o_dual o_warned]; [auto|cbn; auto|reflexivity|auto|]. exists [], r. split; [reflexivity|]. split; [reflexivity|]. split; [auto|]. split; [intros Cs; split; [auto|apply ST; auto]|]. split; [discriminate|intros (r' & [] & _)].
  - rewrite extrapolate_relax by congruence. set (c' := vadd center (vscal (1 + INR idx / (INR idx + 3)) (vsub (stored p a) center))) in *. assert (Lc' : length c' = m) by (unfold c'; auto with vl).
    assert (NS : na_coef_stop N = true -> ~ settled N r) by (intros Cs Hs; apply ST in Hs; auto; discriminate).
    destruct rest as [|e2 rest].
    + cbn [nesta_loop rmap]. eexists. split; [reflexivity|]. split; cbn [o_rounds o_broke o_primal o_dual o_warned]; [auto|cbn; auto|reflexivity|auto|]. exists [], r. split; [reflexivity|]. split; [reflexivity|]. split; [auto|]. split; [intros Cs; split; [auto|split; [discriminate|intros Hs; elim (NS Cs Hs)]]|].
      rewrite orb_false_r, Nat.eqb_eq. split; [intros E; exists r; split; [left; auto|exact E]|intros (r' & [<-|[]] & E); exact E].
    + destruct (IH (S idx) c' (an_prox a) (nesta_value N p (an_coefs a)) (Some (an_coefs a))) as (o & Eo & RN); [discriminate|intros e He; apply HE; right; auto|auto|]. cbn [nesta_loop] in Eo. cbn [nesta_loop]. rewrite Eo. cbn [rmap]. eexists. split; [reflexivity|].
      destruct RN as [R1 R2 R3 R4 (rs & r' & E1 & E2 & E3 & E4 & E5)]. split; cbn [o_rounds o_broke o_primal o_dual o_warned]; [auto|cbn [linked]; auto|cbn [map length firstn]; f_equal; exact R3|auto|]. exists (r :: rs), r'. split; [rewrite E1; reflexivity|]. split; [exact E2|]. split.
      { destruct (o_broke o); [exact E3|]. destruct E3 as (E3 & E3'). split; [cbn [length] in *; congruence|]. rewrite E3'. reflexivity. }
      split; [intros Cs; destruct (E4 Cs) as (F1 & F2); split; [constructor; auto|exact F2]|].
      rewrite orb_true_iff, Nat.eqb_eq, E5. split.
      * intros [E|(r2 & I2 & E)]; [exists r; split; [destruct (o_broke o); left; auto|exact E]|]. exists r2. split; [destruct (o_broke o); right; auto|exact E].
      * intros (r2 & I2 & E). destruct (o_broke o); destruct I2 as [<-|I2]; auto; right; exists r2; auto.
Qed.
(** The call *)
Theorem nesta_ran : forall y0, schedule (na_epsilon N) (na_max_iters N) <> [] -> (forall e, In e (schedule (na_epsilon N) (na_max_iters N)) -> 0 < e) ->
  match na_dual N with Some y => y0 = y /\ length y = m | None => y0 = zeros m end ->
  exists o, nesta run N = Ok o /\ ran N n T P G 0 y0 (schedule (na_epsilon N) (na_max_iters N)) o.
Proof.
  intros y0 NE HE Hy. unfold nesta. destruct (stands_map _ _ _ (nf_source _ _ _ _ _ NF)) as (_ & _ & _ & Ed). rewrite Ed. cbn [rbind]. fold m. assert (E0 : match na_dual N with Some y => y | None => zeros m end = y0) by (destruct (na_dual N); [destruct Hy; auto|auto]). rewrite E0.
  apply nesta_loop_ran; auto. destruct (na_dual N) as [y|]; [destruct Hy as (-> & L); exact L|subst; apply zeros_length].
Qed.

(** ** Rounds of a run *)
Lemma linked_len : forall rs first y, length y = m -> linked first y rs -> Forall (exact_round n T P G) rs -> Forall (fun r => length (r_center r) = m) rs.
Proof.
  induction rs as [|r rs IH]; intros first y Ly LK FE; [auto|]. destruct LK as (_ & Ec & LK). apply Forall_cons_iff in FE. destruct FE as (E1 & FE). constructor; [congruence|]. assert (Ld := round_len r E1). apply (IH (S first) _) in LK; auto with vl.
Qed.
Lemma all_towards : forall rs first y epsilon xs us, length y = m -> linked first y rs -> Forall (exact_round n T P G) rs -> map r_eps rs = firstn (length rs) epsilon -> (forall e, In e epsilon -> 0 < e) ->
  saddle_point n T P G xs us -> Forall (towards m us) rs.
Proof.
  intros rs first y epsilon xs us Ly LK FE EE HE SP. assert (FL := linked_len rs first y Ly LK FE). assert (FP := eps_pos rs epsilon EE HE). rewrite Forall_forall in *. intros r I. destruct nesta_convex as (CP & CG). destruct (stands_map _ _ _ (nf_source _ _ _ _ _ NF)) as (TA & _).
  apply (round_towards n T P G TA (nf_in _ _ _ _ _ NF) CP CG r xs us); auto.
Qed.
Theorem closer : forall y epsilon o xs us, length y = m -> (forall e, In e epsilon -> 0 < e) -> ran N n T P G 0 y epsilon o -> saddle_point n T P G xs us ->
  norm (vsub (o_dual o) us) <= norm (vsub y us) /\ Forall (fun r => norm (vsub (r_center r) us) <= norm (vsub y us) /\ norm (vsub (r_dual r) us) <= norm (vsub (r_center r) us)) (o_rounds o).
Proof.
  intros y epsilon o xs us Ly HE [R1 R2 R3 R4 (rs & r & E1 & E2 & E3 & _)] SP. assert (Lus : length us = m) by apply SP. assert (FT := all_towards _ 0%nat y epsilon xs us Ly R2 R1 R3 HE SP).
  assert (Cen : forall k, (k <= length (o_rounds o))%nat -> norm (vsub (center_after 0 y (firstn k (o_rounds o))) us) <= norm (vsub y us)).
  { intros k Hk. unfold norm. apply sqrt_le_1_alt. destruct (linked_skip k _ _ _ R2 Hk) as (_ & LK). apply (chain_closer m us Lus (firstn k (o_rounds o)) 0%nat y Ly LK). apply Forall_forall. intros r0 I. rewrite Forall_forall in FT. apply FT. rewrite <- (firstn_skipn k). apply in_or_app. auto. }
  assert (Rc : Forall (fun r => norm (vsub (r_center r) us) <= norm (vsub y us)) (o_rounds o)).
  { apply Forall_forall. intros r0 I. apply In_nth with (d := r0) in I. destruct I as (k & Hk & En). destruct (linked_skip k _ _ _ R2 ltac:(lia)) as (LK & _). assert (Sk : exists t, skipn k (o_rounds o) = r0 :: t).
    { clear - Hk En. revert k Hk En. generalize (o_rounds o). induction l as [|a l IH]; intros [|k] Hk En; cbn in *; try lia; [subst; eauto|]. apply IH; auto; lia. }
    destruct Sk as (t & Sk). rewrite Sk in LK. destruct LK as (_ & Ec & _). rewrite Ec. apply Cen. lia. }
  split.
  - destruct (o_broke o).
    + destruct E3 as (-> & _). rewrite Forall_forall in Rc. apply Rc. rewrite E1. apply in_or_app. right. left. auto.
    + destruct E3 as (_ & ->). rewrite <- (firstn_all (o_rounds o)). apply Cen. lia.
  - rewrite Forall_forall in *. intros r0 I. split; auto. destruct (FT r0 I) as (Ld & Tw). unfold norm. apply sqrt_le_1_alt. assert (FL := linked_len _ 0%nat y Ly R2 ltac:(apply Forall_forall; exact R1)). rewrite Forall_forall in FL. specialize (FL r0 I). rewrite (sqn_vsub_sym (r_dual r0) us) by vl m. rewrite (sqn_vsub_sym (r_center r0) us) by vl m. pose proof (sqn_nonneg (vsub (r_dual r0) (r_center r0))). lra.
Qed.
Theorem stops : forall y epsilon o xs us, length y = m -> (forall e, In e epsilon -> 0 < e) -> ran N n T P G 0 y epsilon o -> saddle_point n T P G xs us -> na_coef_stop N = true -> 0 < na_coef_tol N ->
  (INR (na_min_iters N) + 3) * exp (sqn (vsub y us) / (3 * (na_coef_tol N * na_coef_tol N))) < INR (length epsilon) + 3 -> o_broke o = true.
Proof.
  intros y epsilon o xs us Ly HE [R1 R2 R3 R4 (rs & r & E1 & E2 & E3 & E4 & _)] SP Cs Ht HK. destruct (o_broke o) eqn:Eb; auto. exfalso. destruct E3 as (EL & _). destruct (E4 Cs) as (F1 & F2). assert (Lus : length us = m) by apply SP.
  assert (FN : Forall (fun r => ~ settled N r) (o_rounds o)). { rewrite E1. apply Forall_app. split; auto. constructor; [|constructor]. intros Hs. apply F2 in Hs. discriminate. } clear F1 F2 E4 E1 E2.
  set (k := na_min_iters N) in *. set (tol := na_coef_tol N) in *. set (D := sqn (vsub y us)) in *. assert (HD : 0 <= D) by apply sqn_nonneg. assert (T2 : 0 < tol * tol) by (apply Rmult_lt_0_compat; auto).
  assert (X1 : 1 <= exp (D / (3 * (tol * tol)))). { destruct (Req_dec (D / (3 * (tol * tol))) 0) as [->|Nz]; [rewrite exp_0; lra|]. assert (0 <= D / (3 * (tol * tol))) by (apply Rmult_le_pos; [auto|apply Rlt_le, Rinv_0_lt_compat; lra]). apply Rlt_le. eapply Rlt_trans; [|apply exp_ineq1; auto]. lra. }
  pose proof (pos_INR k) as Kp. assert (Hk : (k <= length (o_rounds o))%nat). { rewrite EL. apply INR_le. assert (INR k + 3 <= (INR k + 3) * exp (D / (3 * (tol * tol)))) by nra. lra. }
  destruct (linked_skip k _ _ _ R2 Hk) as (LK & LK1). rewrite Nat.add_0_l in LK. assert (FT := all_towards _ 0%nat y epsilon xs us Ly R2 R1 R3 HE SP). rewrite <- (firstn_skipn k (o_rounds o)) in FT, FN. apply Forall_app in FT. apply Forall_app in FN. destruct FT as (FT1 & FT2). destruct FN as (_ & FN2).
  destruct (chain_closer m us Lus _ 0%nat y Ly LK1 FT1) as (Lc & Cc). assert (Id := linked_idx _ _ _ LK).
  assert (CB := chain_bound m us Lus tol (skipn k (o_rounds o)) k _ ltac:(lra) Lc LK FT2). rewrite skipn_length in CB. replace (k + (length (o_rounds o) - k))%nat with (length epsilon) in CB by lia.
  assert (Q : 3 * (tol * tol) * (ln (INR (length epsilon) + 3) - ln (INR k + 3)) <= D).
  { eapply Rle_trans; [apply CB|exact Cc]. rewrite Forall_forall in *. intros r0 I. apply Rnot_lt_le. intros Hn. apply (FN2 r0 I). split; [|apply Id; auto]. fold tol. pose proof (norm_nonneg (r_dual r0)). nra. }
  assert (Pp : 0 < (INR k + 3) * exp (D / (3 * (tol * tol)))) by (apply Rmult_lt_0_compat; [lra|apply exp_pos]). assert (Lk := ln_increasing _ _ Pp HK). rewrite ln_mult in Lk by (try apply exp_pos; lra). rewrite ln_exp in Lk. assert (D / (3 * (tol * tol)) * (3 * (tol * tol)) = D) by (field; lra). set (w := 3 * (tol * tol)) in *. assert (w * (D / w) < w * (ln (INR (length epsilon) + 3) - ln (INR k + 3))) by (apply Rmult_lt_compat_l; [unfold w; lra|lra]). lra.
Qed.
Theorem stop_value : forall y epsilon o B z, length y = m -> (forall e, In e epsilon -> 0 < e) -> ran N n T P G 0 y epsilon o -> lipschitz_fun m h B -> 0 <= B -> na_coef_stop N = true -> o_broke o = true -> length z = n ->
  exists r rs, o_rounds o = rs ++ [r] /\ ext_le (composed P h T (o_primal o)) (ext_add (composed P h T z) (Fin (2 * B * (B + 1) * r_eps r * na_coef_tol N))).
Proof.
  intros y epsilon o B z Ly HE [R1 R2 R3 R4 (rs & r & E1 & E2 & E3 & E4 & _)] HL HB Cs Hb Lz. exists r, rs. split; auto. destruct (E4 Cs) as (_ & S). apply S in Hb. destruct Hb as (Hs & _). assert (FL := linked_len _ 0%nat y Ly R2 R1). assert (FP := eps_pos _ epsilon R3 HE). assert (I : In r (o_rounds o)) by (rewrite E1; apply in_or_app; right; left; auto). rewrite Forall_forall in *.
  destruct nesta_convex as (CP & CG). destruct (stands_map _ _ _ (nf_source _ _ _ _ _ NF)) as (TA & _). assert (Ld := round_len r (R1 r I)). destruct (round_suboptimal n T P G h TA (nf_in _ _ _ _ _ NF) CP CG B r z HC HL HB (R1 r I) (FP r I) (FL r I) Lz) as (Nu & V). rewrite E2.
  assert (Ns : norm (vsub (r_dual r) (r_center r)) = norm (vsub (r_center r) (r_dual r))) by (unfold norm; f_equal; apply sqn_vsub_sym; rewrite Ld; symmetry; apply FL; auto). rewrite Ns in V. specialize (FP r I). pose proof (norm_nonneg (r_dual r)). pose proof (norm_nonneg (vsub (r_center r) (r_dual r))).
  destruct (composed P h T z) as [c|]; [|destruct (composed P h T (r_primal r)); cbn; auto]. destruct (composed P h T (r_primal r)) as [d|]; cbn in *; [|auto]. assert (norm (vsub (r_center r) (r_dual r)) <= na_coef_tol N * (B + 1)). { destruct (Rle_dec 0 (na_coef_tol N)); [nra|exfalso; nra]. }
  assert (0 <= 2 * B * r_eps r) by nra. assert (2 * B * r_eps r * norm (vsub (r_center r) (r_dual r)) <= 2 * B * r_eps r * (na_coef_tol N * (B + 1))) by (apply Rmult_le_compat_l; auto). lra.
Qed.
End Loop.
