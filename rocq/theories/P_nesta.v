(** Exact rounds of smoothing loops are proximal point steps. *)
From Coq Require Import Reals List Lra Lia Arith Bool.
From Verif Require Import M_affine SpecAffine P_affine M_smooth SpecSmooth Vec Spec SpecConvex P_calc P_sep P_admm P_problem P_sconj M_nesta SpecNesta.
Import ListNotations.
Local Open Scope R_scope.

Lemma le_eps : forall a b, (forall e, 0 < e -> a < b + e) -> a <= b.
Proof. intros a b H. destruct (Rle_dec a b) as [|N]; auto. exfalso. specialize (H (a - b) ltac:(lra)). lra. Qed.
(** ** One regularized supremum *)
Section Sup.
Variables (m : nat) (G : vec -> ext) (eps : R) (y v u : vec).
Hypothesis CG : convex_ext m G.
Hypothesis HE : 0 < eps.
Hypothesis Ly : length y = m.
Hypothesis Lv : length v = m.
Hypothesis MU : is_argmin m (fun w => ext_add (regularized G eps y w) (Fin (- dot v w))) u.

Lemma sup_len : length u = m.
Proof. apply MU. Qed.
Lemma sup_fin : exists gu, G u = Fin gu.
Proof. destruct MU as (_ & (r & E) & _). unfold regularized in E. destruct (G u) as [gu|]; [eauto|discriminate]. Qed.
(** v - eps (u - y) is a subgradient of G at u. *)
Lemma sup_variational : forall gu w gw, length w = m -> G u = Fin gu -> G w = Fin gw -> gu + dot (vsub v (vscal eps (vsub u y))) (vsub w u) <= gw.
Proof.
  intros gu w gw Lw Eu Ew. assert (Lu := sup_len).
  assert (M' : is_argmin m (fun z => ext_add (G z) (Fin (eps / 2 * sqn (vsub z y) + dot (vopp v) z))) u).
  { destruct MU as (A & (r & E) & B). split; auto. assert (R : forall z, ext_add (regularized G eps y z) (Fin (- dot v z)) = ext_add (G z) (Fin (eps / 2 * sqn (vsub z y) + dot (vopp v) z))).
    { intros z. unfold regularized. destruct (G z); cbn; auto. f_equal. rewrite dot_opp_l. ring. }
    split; [exists r; rewrite <- R; auto|]. intros z Lz. rewrite <- !R. auto. }
  assert (V := prox_variational m G eps y (vopp v) u gu w gw CG HE Ly ltac:(auto with vl) Lw M' Eu Ew). rewrite !dot_opp_l in V.
  rewrite dot_sub_l by vl m. rewrite dot_scal_l. rewrite !dot_sub_r by vl m. lra.
Qed.
Lemma sup_strong : forall gu w gw, length w = m -> G u = Fin gu -> G w = Fin gw ->
  gu + eps / 2 * sqn (vsub u y) - dot v u + eps / 2 * sqn (vsub w u) <= gw + eps / 2 * sqn (vsub w y) - dot v w.
Proof.
  intros gu w gw Lw Eu Ew. assert (Lu := sup_len). assert (V := sup_variational gu w gw Lw Eu Ew). rewrite dot_sub_l, dot_scal_l, !dot_sub_r in V by vl m. rewrite !dot_sub_l in V by vl m.
  rewrite !sqn_sub by vl m. rewrite (dot_comm w y), (dot_comm u y), (dot_comm w u) in *. unfold sqn in *. nra.
Qed.
Section Value.
Variable S : vec -> R.
Hypothesis HS : forall v, length v = m -> is_fenchel m (regularized G eps y) v (Fin (S v)).
Lemma sup_value : forall gu, G u = Fin gu -> S v = dot v u - gu - eps / 2 * sqn (vsub u y).
Proof.
  intros gu Eu. assert (Lu := sup_len). destruct (HS v Lv) as [A B]. apply Rle_antisym.
  - apply le_eps. intros e He. destruct (B e He) as (w & r & Lw & Ew & Hw). unfold regularized in Ew. destruct (G w) as [gw|] eqn:Gw; [|discriminate]. cbn in Ew. injection Ew as <-.
    assert (K := sup_strong gu w gw Lw Eu Gw). pose proof (sqn_nonneg (vsub w u)). nra.
  - specialize (A u (gu + eps / 2 * sqn (vsub u y)) Lu). unfold regularized in A. rewrite Eu in A. specialize (A eq_refl). lra.
Qed.
Lemma sup_upper : forall w, length w = m -> S w <= S v + dot (vsub w v) u + / (2 * eps) * sqn (vsub w v).
Proof.
  intros w Lw. assert (Lu := sup_len). destruct sup_fin as (gu & Eu). rewrite (sup_value gu Eu). destruct (HS w Lw) as [_ B]. apply le_eps. intros e He. destruct (B e He) as (z & r & Lz & Ez & Hz). unfold regularized in Ez. destruct (G z) as [gz|] eqn:Gz; [|discriminate]. cbn in Ez. injection Ez as <-.
  assert (K := sup_strong gu z gz Lz Eu Gz). assert (Q := sqn_nonneg (vsub (vsub w v) (vscal eps (vsub z u)))). rewrite sqn_sub in Q by vl m. rewrite sqn_scal, dot_scal_r in Q. rewrite dot_sub_r in Q by vl m. rewrite !dot_sub_l in Q by vl m. rewrite dot_sub_l by vl m.
  assert (Q2 : 0 <= / (2 * eps) * sqn (vsub w v) - (dot w z - dot v z - (dot w u - dot v u)) + eps / 2 * sqn (vsub z u)).
  { apply Rmult_le_reg_l with (2 * eps); [lra|]. rewrite Rmult_0_r. replace (2 * eps * (/ (2 * eps) * sqn (vsub w v) - (dot w z - dot v z - (dot w u - dot v u)) + eps / 2 * sqn (vsub z u))) with (sqn (vsub w v) - 2 * (eps * (dot w z - dot v z - (dot w u - dot v u))) + eps * eps * sqn (vsub z u)) by (field; lra). lra. }
  lra.
Qed.
End Value.
(** the conjugate of G at v - eps (u - y) *)
Lemma sup_conjugate : forall h gu, conjugates m h G -> G u = Fin gu -> h (vsub v (vscal eps (vsub u y))) = Fin (dot (vsub v (vscal eps (vsub u y))) u - gu).
Proof.
  intros h gu [_ HC] Eu. assert (Lu := sup_len). set (w := vsub v (vscal eps (vsub u y))). assert (Lw : length w = m) by (unfold w; auto with vl). specialize (HC w Lw).
  assert (V : forall z gz, length z = m -> G z = Fin gz -> dot w z - gz <= dot w u - gu). { intros z gz Lz Ez. assert (K := sup_variational gu z gz Lz Eu Ez). fold w in K. rewrite dot_sub_r in K by vl m. lra. }
  destruct (h w) as [hw|].
  - destruct HC as [A B]. f_equal. apply Rle_antisym; [|apply (A u gu); auto]. apply le_eps. intros e He. destruct (B e He) as (z & r & Lz & Ez & Hz). specialize (V z r Lz Ez). lra.
  - exfalso. destruct (HC (dot w u - gu)) as (z & r & Lz & Ez & Hz). specialize (V z r Lz Ez). lra.
Qed.
End Sup.

(** ** Relaxed steps *)
Lemma relax : forall m (y u s : vec) rho, length y = m -> length u = m -> length s = m -> 0 <= rho -> sqn (vsub u y) + sqn (vsub s u) <= sqn (vsub s y) ->
  sqn (vsub (vadd y (vscal rho (vsub u y))) s) + rho * (2 - rho) * sqn (vsub u y) <= sqn (vsub y s).
Proof.
  intros m y u s rho Ly Lu Ls Hr H. replace (vsub (vadd y (vscal rho (vsub u y))) s) with (vadd (vsub y s) (vscal rho (vsub u y))).
  - rewrite sqn_add by vl m. rewrite sqn_scal, dot_scal_r. rewrite !sqn_sub in * by vl m. rewrite dot_sub_l, !dot_sub_r by vl m. rewrite (dot_comm s u), (dot_comm s y), (dot_comm u y) in *. unfold sqn in *. nra.
  - clear H. revert y u s Ly Lu Ls. unfold vsub, vadd, vscal. induction m as [|m IH]; intros [|a y] [|b u] [|c s] Ly Lu Ls; cbn in *; try discriminate; auto. f_equal; [ring|]. apply IH; congruence.
Qed.
Lemma extrapolate_relax : forall idx (u y : vec), length u = length y -> extrapolate idx u y = vadd y (vscal (1 + INR idx / (INR idx + 3)) (vsub u y)).
Proof. intros idx. unfold extrapolate, vadd, vscal, vsub. generalize (INR idx / (INR idx + 3)). intros t. induction u as [|a u IH]; intros [|b y] L; cbn in *; try discriminate; auto. f_equal; [ring|apply IH; congruence]. Qed.
Lemma weight_range : forall k, 1 <= 1 + INR k / (INR k + 3) /\ 3 / (INR k + 3) <= (1 + INR k / (INR k + 3)) * (2 - (1 + INR k / (INR k + 3))).
Proof.
  intros k. pose proof (pos_INR k) as K. set (t := INR k / (INR k + 3)). assert (T : t * (INR k + 3) = INR k) by (unfold t; field; lra). assert (0 <= t) by (unfold t; apply Rmult_le_pos; [lra|apply Rlt_le, Rinv_0_lt_compat; lra]).
  assert (E : 3 / (INR k + 3) = 1 - t) by (unfold t; field; lra). rewrite E. assert (t < 1) by nra. split; [lra|nra].
Qed.
(** the total weight of rounds first, first + 1, ... *)
Lemma log_step : forall x, 0 < x -> ln (x + 1) - ln x <= 1 / x.
Proof.
  intros x Hx. replace (x + 1) with (x * (1 + 1 / x)) by (field; lra). assert (P : 0 < 1 / x) by (apply Rdiv_lt_0_compat; lra). rewrite ln_mult by lra.
  assert (L : ln (1 + 1 / x) <= 1 / x). { rewrite <- (ln_exp (1 / x)) at 2. destruct (Req_dec (1 + 1 / x) (exp (1 / x))) as [->|N]; [lra|]. left. apply ln_increasing; [lra|]. apply exp_ineq1; lra. } lra.
Qed.
Section Chain.
Variables (m : nat) (s : vec).
Hypothesis Ls : length s = m.
(** every round satisfies the proximal inequality towards s *)
Definition towards (r : round) : Prop := length (r_dual r) = m /\ sqn (vsub (r_dual r) (r_center r)) + sqn (vsub s (r_dual r)) <= sqn (vsub s (r_center r)).
Theorem chain_closer : forall rs first y, length y = m -> linked first y rs -> Forall towards rs -> length (center_after first y rs) = m /\ sqn (vsub (center_after first y rs) s) <= sqn (vsub y s).
Proof.
  induction rs as [|r rs IH]; intros first y Ly LK FT; [split; [auto|apply Rle_refl]|]. destruct LK as (Ei & Ec & LK). apply Forall_cons_iff in FT. destruct FT as ((Ld & TW) & FT). rewrite Ec in TW. cbn [center_after].
  destruct (weight_range first) as (W1 & W2). assert (X := relax m y (r_dual r) s (1 + INR first / (INR first + 3)) Ly Ld Ls ltac:(lra) TW). assert (L' : length (vadd y (vscal (1 + INR first / (INR first + 3)) (vsub (r_dual r) y))) = m) by auto with vl.
  destruct (IH (S first) _ L' LK FT) as (A & B). split; auto. pose proof (sqn_nonneg (vsub (r_dual r) y)).
  assert (0 <= 3 / (INR first + 3)) by (apply Rmult_le_pos; [lra|apply Rlt_le, Rinv_0_lt_compat; pose proof (pos_INR first); lra]). nra.
Qed.
(** If every round moves by at least t, there cannot be too many. *)
Theorem chain_bound : forall t rs first y, 0 <= t -> length y = m -> linked first y rs -> Forall towards rs -> Forall (fun r => t <= norm (vsub (r_center r) (r_dual r))) rs ->
  3 * (t * t) * (ln (INR (first + length rs) + 3) - ln (INR first + 3)) <= sqn (vsub y s).
Proof.
  intros t. induction rs as [|r rs IH]; intros first y Ht Ly LK FT FB.
  - cbn [length]. rewrite Nat.add_0_r. rewrite Rminus_diag_eq by reflexivity. rewrite Rmult_0_r. apply sqn_nonneg.
  - destruct LK as (Ei & Ec & LK). apply Forall_cons_iff in FT. destruct FT as ((Ld & TW) & FT). apply Forall_cons_iff in FB. destruct FB as (B1 & FB). rewrite Ec in TW, B1.
    destruct (weight_range first) as (W1 & W2). assert (X := relax m y (r_dual r) s (1 + INR first / (INR first + 3)) Ly Ld Ls ltac:(lra) TW). assert (L' : length (vadd y (vscal (1 + INR first / (INR first + 3)) (vsub (r_dual r) y))) = m) by auto with vl.
    specialize (IH (S first) _ Ht L' LK FT FB). cbn [length]. replace (first + S (length rs))%nat with (S first + length rs)%nat by lia.
    assert (Q : t * t <= sqn (vsub (r_dual r) y)). { rewrite sqn_vsub_sym by vl m. rewrite <- norm_sq. pose proof (norm_nonneg (vsub y (r_dual r))). nra. }
    assert (N : ln (INR (S first) + 3) - ln (INR first + 3) <= 1 / (INR first + 3)). { rewrite S_INR. replace (INR first + 1 + 3) with (INR first + 3 + 1) by ring. apply log_step. pose proof (pos_INR first). lra. }
    assert (N3 : 3 / (INR first + 3) = 3 * (1 / (INR first + 3))) by (unfold Rdiv; ring). assert (N0 : 0 <= 1 / (INR first + 3)) by (unfold Rdiv; rewrite Rmult_1_l; apply Rlt_le, Rinv_0_lt_compat; pose proof (pos_INR first); lra).
    assert (W3 : 3 / (INR first + 3) * (t * t) <= (1 + INR first / (INR first + 3)) * (2 - (1 + INR first / (INR first + 3))) * sqn (vsub (r_dual r) y)). { apply Rmult_le_compat; try nra. }
    assert (0 <= t * t) by nra. assert (t * t * (ln (INR (S first) + 3) - ln (INR first + 3)) <= t * t * (1 / (INR first + 3))) by (apply Rmult_le_compat_l; auto). rewrite N3 in W3. lra.
Qed.
End Chain.

(** ** Rounds of nesta *)
Section Rounds.
Variables (n : nat) (T : transform) (P G h : vec -> ext).
Hypothesis AD : true_adjoint T.
Hypothesis TI : t_in T = n.
Hypothesis CP : convex_ext n P.
Hypothesis CG : convex_ext (t_out T) G.
Let m := t_out T.

Lemma lin_len : forall x, length x = n -> length (t_lin T x) = m.
Proof. intros x L. apply AD. congruence. Qed.
Lemma lin_between : forall x z t, length x = n -> length z = n -> t_lin T (between x z t) = between (t_lin T x) (t_lin T z) t.
Proof.
  intros x z t Lx Lz. destruct (adjoint_linear T AD) as [Ln1 Ln2]. unfold between. rewrite Ln1 by (rewrite TI; auto with vl). rewrite Ln2 by (rewrite TI; auto with vl). rewrite lin_sub by (auto; congruence). reflexivity.
Qed.
Lemma sqn_between_move : forall (a b : vec) t, length a = length b -> vsub (between a b t) a = vscal t (vsub b a).
Proof. intros a b t. unfold between, vsub, vadd, vscal. revert b. induction a as [|c a IH]; intros [|d b] L; cbn in *; try discriminate; auto. f_equal; [ring|apply IH; congruence]. Qed.
Lemma round_parts : forall r, exact_round n T P G r -> length (r_primal r) = n /\ length (r_dual r) = m /\ (exists p, P (r_primal r) = Fin p) /\ exists g, G (r_dual r) = Fin g.
Proof.
  intros r (S & HS & (Lx & (px & Ex) & _) & MU). split; [auto|]. split; [apply MU|]. split; [|apply (sup_fin m G _ _ _ _ MU)].
  destruct (P (r_primal r)) as [p|]; [eauto|discriminate].
Qed.
(** The primal point minimizes P + <u, Tx>. *)
Lemma round_primal : forall r p z pz, exact_round n T P G r -> 0 < r_eps r -> length (r_center r) = m -> length z = n -> P (r_primal r) = Fin p -> P z = Fin pz ->
  p + dot (r_dual r) (t_lin T (r_primal r)) <= pz + dot (r_dual r) (t_lin T z).
Proof.
  intros r p z pz ER HE Lc Lz Ep Ez. destruct ER as (S & HS & (Lx & _ & MX) & MU). assert (Lv := lin_len _ Lx). assert (Lw := lin_len _ Lz). assert (Lu : length (r_dual r) = m) by apply MU.
  set (x := r_primal r) in *. set (u := r_dual r) in *. set (a := t_lin T x) in *. set (b := t_lin T z) in *.
  assert (Q : 0 <= pz - p + dot (vsub b a) u); [|rewrite dot_sub_l in Q by vl m; rewrite (dot_comm u a), (dot_comm u b); lra].
  apply slope_nonneg with (B := / (2 * r_eps r) * sqn (vsub b a)).
  - apply Rmult_le_pos; [apply Rlt_le, Rinv_0_lt_compat; lra|apply sqn_nonneg].
  - intros t Ht. specialize (MX (between x z t) ltac:(auto with vl)). cbv beta in MX. fold x in MX. rewrite lin_between in MX by auto. fold a b in MX. assert (Lab : length (between a b t) = m) by auto with vl.
    assert (U := sup_upper m G (r_eps r) (r_center r) a u CG HE Lc Lv MU S HS (between a b t) Lab). rewrite sqn_between_move in U by vl m. rewrite dot_scal_l, sqn_scal in U.
    assert (K := CP x z t p pz Lx Lz ltac:(lra) Ep Ez). destruct (P (between x z t)) as [pt|] eqn:Et; [|rewrite Ep in MX; cbn in K; contradiction]. rewrite Ep in MX. cbn in MX, K. lra.
Qed.
(** Each round is a proximal step towards every dual solution. *)
Theorem round_towards : forall r xs us, exact_round n T P G r -> 0 < r_eps r -> length (r_center r) = m -> saddle_point n T P G xs us -> towards m us r.
Proof.
  intros r xs us ER HE Lc ((Lxs & (a1 & Ea1) & MX) & (Lus & (a2 & Ea2) & MU)). destruct (P xs) as [ps|] eqn:Eps; [|discriminate]. destruct (G us) as [gs|] eqn:Egs; [|discriminate]. clear a1 a2 Ea1 Ea2.
  destruct (round_parts r ER) as (Lx & Lu & (p & Ep) & (g & Eg)). split; auto.
  assert (A := round_primal r p xs ps ER HE Lc Lxs Ep Eps). specialize (MX (r_primal r) Lx). cbv beta in MX. rewrite ?Eps, ?Ep in MX. cbn in MX. specialize (MU (r_dual r) Lu). cbv beta in MU. rewrite ?Egs, ?Eg in MU. cbn in MU.
  destruct ER as (S & HS & _ & MD). assert (Lv := lin_len _ Lx). assert (B := sup_strong m G (r_eps r) (r_center r) (t_lin T (r_primal r)) (r_dual r) CG HE Lc Lv MD g us gs Lus Eg Egs).
  rewrite (dot_comm (r_dual r) (t_lin T (r_primal r))), (dot_comm (r_dual r) (t_lin T xs)) in A. rewrite (dot_comm us (t_lin T xs)), (dot_comm us (t_lin T (r_primal r))) in MX.
  apply Rmult_le_reg_l with (r_eps r / 2); [lra|]. lra.
Qed.
(** What an exact round is worth: the primal point with a point near Tx. *)
Theorem round_value : forall r z, conjugates m h G -> exact_round n T P G r -> 0 < r_eps r -> length (r_center r) = m -> length z = n ->
  exists v, length v = m /\ vsub (t_lin T (r_primal r)) v = vscal (r_eps r) (vsub (r_dual r) (r_center r)) /\
    ext_le (ext_add (P (r_primal r)) (h v)) (ext_add (composed P h T z) (Fin (r_eps r * norm (vsub (r_dual r) (r_center r)) * norm (r_dual r)))).
Proof.
  intros r z HC ER HE Lc Lz. destruct (round_parts r ER) as (Lx & Lu & (p & Ep) & (g & Eg)). assert (Lv := lin_len _ Lx). assert (Lw := lin_len _ Lz).
  destruct ER as (S & HS & MX & MU). assert (ER : exact_round n T P G r) by (exists S; auto). set (v := vsub (t_lin T (r_primal r)) (vscal (r_eps r) (vsub (r_dual r) (r_center r)))).
  assert (Lv' : length v = m) by (unfold v; auto with vl). exists v. split; [auto|]. split.
  - unfold v. set (d := vscal (r_eps r) (vsub (r_dual r) (r_center r))). assert (Ld : length d = m) by (unfold d; auto with vl). clearbody d. clear - Lv Ld. revert Lv Ld. generalize (t_lin T (r_primal r)). generalize m. clear. unfold vsub. intros k a. revert k d. induction a as [|c a IH]; intros [|k] [|b d] L1 L2; cbn in *; try discriminate; auto. f_equal; [ring|]. apply (IH k); congruence.
  - assert (Eh := sup_conjugate m G (r_eps r) (r_center r) (t_lin T (r_primal r)) (r_dual r) CG HE Lc Lv MU h g HC Eg). fold v in Eh. rewrite Ep, Eh. unfold composed. destruct (P z) as [pz|] eqn:Ez; [|cbn; auto]. destruct (h (t_lin T z)) as [hz|] eqn:Ehz; [|cbn; auto]. cbn [ext_add ext_le].
    assert (A := round_primal r p z pz ER HE Lc Lz Ep Ez). destruct HC as [_ HC]. specialize (HC (t_lin T z) Lw). rewrite Ehz in HC. destruct HC as [HC _]. specialize (HC (r_dual r) g Lu Eg).
    assert (CS : dot (vsub (r_dual r) (r_center r)) (vopp (r_dual r)) <= norm (vsub (r_dual r) (r_center r)) * norm (vopp (r_dual r))) by (apply cauchy_schwarz; vl m). rewrite dot_opp_r in CS.
    assert (En : norm (vopp (r_dual r)) = norm (r_dual r)). { unfold norm. f_equal. unfold sqn. rewrite dot_opp_l, dot_opp_r. ring. } rewrite En in CS.
    unfold v at 1. rewrite dot_sub_l by vl m. rewrite dot_scal_l. rewrite (dot_comm (r_dual r) (t_lin T (r_primal r))), (dot_comm (r_dual r) (t_lin T z)) in A. nra.
Qed.
(** With a Lipschitz penalty, the primal point itself. *)
Lemma lipschitz_domain : forall B u g, conjugates m h G -> lipschitz_fun m h B -> 0 <= B -> length u = m -> G u = Fin g -> norm u <= B.
Proof.
  intros B u g [HC _] (h' & Eh & Lp) HB Lu Eg. specialize (HC u Lu). rewrite Eg in HC. destruct HC as [HC _].
  destruct (Rle_dec (norm u) B) as [|N]; auto. exfalso. set (d := norm u * (norm u - B)). assert (0 <= norm u) by apply norm_nonneg. assert (D : 0 < d) by (unfold d; apply Rmult_lt_0_compat; lra).
  set (t := (Rabs (h' (zeros m)) + Rabs g + 1) / d). assert (Ht : 0 < t). { unfold t. apply Rdiv_lt_0_compat; auto. pose proof (Rabs_pos (h' (zeros m))). pose proof (Rabs_pos g). lra. }
  assert (Lt : length (vscal t u) = m) by auto with vl. specialize (HC (vscal t u) (h' (vscal t u)) Lt (Eh _ Lt)). specialize (Lp (vscal t u) (zeros m) Lt ltac:(auto with vl)).
  assert (E0 : norm (vsub (vscal t u) (zeros m)) = t * norm u). { assert (E1 : vsub (vscal t u) (zeros m) = vscal t u). { clear - Lt. revert Lt. generalize (vscal t u). clear. intros w <-. unfold vsub, zeros. induction w as [|a w IH]; cbn; auto. f_equal; [ring|auto]. } rewrite E1. unfold norm. rewrite sqn_scal. rewrite sqrt_mult; [|nra|apply sqn_nonneg]. f_equal. apply sqrt_square. lra. }
  rewrite E0 in Lp. rewrite dot_scal_r in HC. change (dot u u) with (sqn u) in HC. rewrite <- norm_sq in HC. assert (t * d = Rabs (h' (zeros m)) + Rabs g + 1) by (unfold t; field; lra). unfold d in H0.
  pose proof (Rle_abs (h' (zeros m))). pose proof (Rle_abs g). lra.
Qed.
Theorem round_suboptimal : forall B r z, conjugates m h G -> lipschitz_fun m h B -> 0 <= B -> exact_round n T P G r -> 0 < r_eps r -> length (r_center r) = m -> length z = n ->
  norm (r_dual r) <= B /\ ext_le (composed P h T (r_primal r)) (ext_add (composed P h T z) (Fin (2 * B * r_eps r * norm (vsub (r_dual r) (r_center r))))).
Proof.
  intros B r z HC HL HB ER HE Lc Lz. destruct (round_parts r ER) as (Lx & Lu & (p & Ep) & (g & Eg)). assert (Nu := lipschitz_domain B _ g HC HL HB Lu Eg). split; auto.
  destruct (round_value r z HC ER HE Lc Lz) as (v & Lv & Ev & V). destruct HL as (h' & Eh & Lp). assert (Lw := lin_len _ Lx). specialize (Lp _ _ Lw Lv). rewrite Ev in Lp.
  assert (En : norm (vscal (r_eps r) (vsub (r_dual r) (r_center r))) = r_eps r * norm (vsub (r_dual r) (r_center r))). { unfold norm. rewrite sqn_scal. rewrite sqrt_mult; [|nra|apply sqn_nonneg]. f_equal. apply sqrt_square. lra. } rewrite En in Lp.
  unfold composed in *. rewrite Ep, (Eh v Lv) in V. rewrite Ep, (Eh _ Lw). assert (Lz' := lin_len _ Lz). rewrite (Eh _ Lz') in *. destruct (P z) as [pz|]; cbn [ext_add ext_le] in *; auto.
  pose proof (norm_nonneg (vsub (r_dual r) (r_center r))). assert (r_eps r * norm (vsub (r_dual r) (r_center r)) * norm (r_dual r) <= r_eps r * norm (vsub (r_dual r) (r_center r)) * B) by (apply Rmult_le_compat_l; auto; apply Rmult_le_pos; lra). lra.
Qed.
(** A round that leaves its center where it was has solved the problem. *)
Theorem round_fixed : forall r, conjugates m h G -> exact_round n T P G r -> 0 < r_eps r -> length (r_center r) = m -> r_dual r = r_center r -> is_argmin n (composed P h T) (r_primal r) /\ saddle_point n T P G (r_primal r) (r_dual r).
Proof.
  intros r HC ER HE Lc EQ. destruct (round_parts r ER) as (Lx & Lu & (p & Ep) & (g & Eg)). assert (Lv := lin_len _ Lx). split.
  - assert (K : forall z, length z = n -> ext_le (composed P h T (r_primal r)) (composed P h T z) /\ exists c, composed P h T (r_primal r) = Fin c).
    { intros z Lz. destruct (round_value r z HC ER HE Lc Lz) as (v & L & Ev & V). rewrite EQ, vsub_self in Ev, V. assert (E : t_lin T (r_primal r) = v). { apply vsub_eq_zero; [vl m|]. rewrite Ev. rewrite sqn_scal. rewrite sqn_zeros. lra. } rewrite <- E in V.
      assert (N0 : norm (zeros (length (r_center r))) = 0) by (unfold norm; rewrite sqn_zeros; apply sqrt_0). rewrite N0, Rmult_0_r, Rmult_0_l in V. split.
      - unfold composed at 1. destruct (composed P h T z) as [c|]; [|destruct (ext_add _ _); cbn; auto]. cbn [ext_add] in V. rewrite Rplus_0_r in V. exact V.
      - unfold composed. rewrite Ep. destruct ER as (S & HS & MX & MU). assert (Eh := sup_conjugate m G (r_eps r) (r_center r) (t_lin T (r_primal r)) (r_dual r) CG HE Lc Lv MU h g HC Eg).
        replace (vsub (t_lin T (r_primal r)) (vscal (r_eps r) (vsub (r_dual r) (r_center r)))) with (t_lin T (r_primal r)) in Eh. + rewrite Eh. cbn. eauto. + rewrite EQ, vsub_self. rewrite Lc. clear - Lv. revert Lv. generalize (t_lin T (r_primal r)) m (r_eps r). clear. intros a k e <-. unfold vsub, zeros, vscal. induction a as [|c a IH]; cbn; auto. f_equal; [ring|auto]. }
    split; auto. split; [destruct (K _ Lx); auto|]. intros z Lz. apply K; auto.
  - split.
    + split; auto. split; [rewrite Ep; cbn; eauto|]. intros z Lz. cbv beta. rewrite Ep. destruct (P z) as [pz|] eqn:Ez; cbn; auto. apply (round_primal r p z pz); auto.
    + split; auto. split; [rewrite Eg; cbn; eauto|]. intros w Lw. cbv beta. rewrite Eg. destruct (G w) as [gw|] eqn:Ew; cbn; auto. destruct ER as (S & HS & MX & MU).
      assert (V := sup_variational m G (r_eps r) (r_center r) (t_lin T (r_primal r)) (r_dual r) CG HE Lc Lv MU g w gw Lw Eg Ew). assert (Z : vsub (r_dual r) (r_center r) = zeros m) by (rewrite EQ, vsub_self; congruence). rewrite Z in V. rewrite dot_sub_l, dot_scal_l, dot_zeros_l, !dot_sub_r in V by vl m. lra.
Qed.
Theorem saddle_solves : forall xs us, conjugates m h G -> saddle_point n T P G xs us -> is_argmin n (composed P h T) xs.
Proof.
  intros xs us HC ((Lxs & (a1 & Ea1) & MX) & (Lus & (a2 & Ea2) & MU)). destruct (P xs) as [ps|] eqn:Eps; [|discriminate]. destruct (G us) as [gs|] eqn:Egs; [|discriminate]. clear a1 a2 Ea1 Ea2. assert (Lv := lin_len _ Lxs).
  assert (Eh : h (t_lin T xs) = Fin (dot (t_lin T xs) us - gs)).
  { destruct HC as [_ HC]. specialize (HC _ Lv). assert (V : forall w gw, length w = m -> G w = Fin gw -> dot (t_lin T xs) w - gw <= dot (t_lin T xs) us - gs). { intros w gw Lw Ew. specialize (MU w Lw). cbv beta in MU. rewrite ?Ew, ?Egs in MU. cbn in MU. lra. }
    destruct (h (t_lin T xs)) as [hw|].
    - destruct HC as [A B]. f_equal. apply Rle_antisym; [|apply (A us gs); auto]. apply le_eps. intros e He. destruct (B e He) as (z & r & Lz & Ez & Hz). specialize (V z r Lz Ez). lra.
    - exfalso. destruct (HC (dot (t_lin T xs) us - gs)) as (z & r & Lz & Ez & Hz). specialize (V z r Lz Ez). lra. }
  split; auto. unfold composed. rewrite Eps, Eh. split; [cbn; eauto|]. intros z Lz. destruct (P z) as [pz|] eqn:Ez; [|cbn; auto]. destruct (h (t_lin T z)) as [hz|] eqn:Ehz; cbn; auto.
  destruct HC as [_ HC]. specialize (HC _ (lin_len _ Lz)). rewrite Ehz in HC. destruct HC as [HC _]. specialize (HC us gs Lus Egs). specialize (MX z Lz). cbv beta in MX. rewrite ?Eps, ?Ez in MX. cbn in MX. rewrite (dot_comm us (t_lin T xs)), (dot_comm us (t_lin T z)) in MX. lra.
Qed.
End Rounds.
