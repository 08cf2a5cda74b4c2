(** tfocs: exact rounds are proximal steps on the primal problem. *)
From Coq Require Import Reals List Lra Lia Arith Bool.
From Verif Require Import M_affine SpecAffine P_affine M_loss M_smooth SpecSmooth P_smooth Vec Spec SpecConvex M_quad P_quad P_calc P_sep P_loss M_prox M_semi SpecAtom P_semi P_conj M_shift SpecBase P_shift M_afatom SpecCone M_cones P_cones M_fista SpecFista M_problem SpecProblem P_problem M_sconj SpecSconj P_sconj P_block3 P_path2 P_admm M_nesta SpecNesta P_nesta P_nesta2 P_nesta3.
Import ListNotations.
Local Open Scope R_scope.

Lemma adjoint_true : forall T, true_adjoint T -> true_adjoint (adjoint T).
Proof. intros T (A & B & C). split; [|split]; cbn [t_lin t_adj t_in t_out adjoint]; auto. intros x z Lx Lz. rewrite (dot_comm (t_adj T x)), (dot_comm x). symmetry. auto. Qed.
Lemma opp_between : forall (a b : vec) t, length a = length b -> vopp (between a b t) = between (vopp a) (vopp b) t.
Proof. intros a b t. unfold between, vopp, vadd, vscal, vsub. revert b. induction a as [|c a IH]; intros [|d b] L; cbn in *; try discriminate; auto. f_equal; [ring|apply IH; congruence]. Qed.
Section TRounds.
Variables (n : nat) (T : transform) (P G h : vec -> ext).
Hypothesis GD : good_design T n (t_out T).
Hypothesis AF : forall v, length v = n -> t_aff T v = vadd (t_lin T v) (offset_of T).
Hypothesis LO : length (offset_of T) = t_out T.
Hypothesis CP : convex_ext n P.
Hypothesis HC : conjugates (t_out T) h G.
Let m := t_out T.

Lemma tf_adj : true_adjoint T /\ t_in T = n.
Proof. split; apply GD. Qed.
Lemma taff_len : forall v, length v = n -> length (t_aff T v) = m.
Proof. intros v Lv. rewrite AF by auto. destruct tf_adj as ((A & _) & E). assert (length (t_lin T v) = m) by (apply A; congruence). auto with vl. Qed.
Lemma tadj_len : forall u, length u = m -> length (vopp (t_adj T u)) = n.
Proof. intros u Lu. destruct tf_adj as ((_ & A & _) & E). rewrite vopp_length. rewrite A by auto. auto. Qed.
Lemma tround_parts : forall r, exact_tround n T P G r -> length (r_primal r) = m /\ length (r_dual r) = n /\ (exists g, G (r_primal r) = Fin g) /\ exists p, P (r_dual r) = Fin p.
Proof.
  intros r (S & HS & (Lx & (px & Ex) & _) & MU). split; [auto|]. split; [apply MU|]. split; [|apply (sup_fin n P _ _ _ _ MU)]. destruct (G (r_primal r)) as [p|]; [eauto|discriminate].
Qed.
(** The dual point is optimal: T v + a is a subgradient of G there. *)
Lemma tround_dual : forall r g w gw, exact_tround n T P G r -> 0 < r_eps r -> length (r_center r) = n -> length w = m -> G (r_primal r) = Fin g -> G w = Fin gw ->
  g + dot (t_aff T (r_dual r)) (vsub w (r_primal r)) <= gw.
Proof.
  intros r g w gw ER HE Lc Lw Eg Ew. destruct (tround_parts r ER) as (Lu & Lv & _). destruct ER as (S & HS & (_ & _ & MX) & MU). destruct tf_adj as (AD & TI). assert (CG : convex_ext m G) by (apply (fenchel_convex _ h); apply HC).
  set (u := r_primal r) in *. set (v := r_dual r) in *. set (a := vopp (t_adj T u)) in *. set (b := vopp (t_adj T w)). assert (La : length a = n) by (apply tadj_len; auto). assert (Lb : length b = n) by (apply tadj_len; auto).
  assert (Lau : length (t_adj T u) = n) by (unfold a in La; rewrite vopp_length in La; auto). assert (Law : length (t_adj T w) = n) by (unfold b in Lb; rewrite vopp_length in Lb; auto).
  assert (Et : forall z, length z = m -> dot (t_lin T v) z = dot v (t_adj T z)) by (intros z Lz; apply AD; auto; congruence).
  assert (Q : 0 <= gw - g + dot (vsub b a) v - dot (offset_of T) (vsub w u)).
  2:{ rewrite AF by auto. assert (Ltv : length (t_lin T v) = m) by (apply AD; congruence). rewrite dot_add_l by vl m. rewrite !dot_sub_r by vl m. rewrite !dot_sub_r in Q by vl m. rewrite !Et by auto. rewrite dot_sub_l in Q by vl n. unfold a, b in Q. rewrite !dot_opp_l in Q. rewrite (dot_comm (t_adj T u)), (dot_comm (t_adj T w)) in Q. lra. }
  apply slope_nonneg with (B := / (2 * r_eps r) * sqn (vsub b a)).
  - apply Rmult_le_pos; [apply Rlt_le, Rinv_0_lt_compat; lra|apply sqn_nonneg].
  - intros t Ht. specialize (MX (between u w t) ltac:(auto with vl)). cbv beta in MX. fold u in MX.
    assert (Eb : vopp (t_adj T (between u w t)) = between a b t).
    { assert (E1 := lin_between m (adjoint T) (adjoint_true T AD) eq_refl u w t Lu Lw). cbn [t_lin adjoint] in E1. rewrite E1. apply opp_between; congruence. }
    rewrite Eb in MX. fold a in MX. assert (Lab : length (between a b t) = n) by auto with vl.
    assert (U := sup_upper n P (r_eps r) (r_center r) a v CP HE Lc La MU S HS (between a b t) Lab). rewrite sqn_between_move in U by vl n. rewrite dot_scal_l, sqn_scal in U.
    assert (K := CG u w t g gw Lu Lw ltac:(lra) Eg Ew). destruct (G (between u w t)) as [pt|] eqn:Et2; [|rewrite Eg in MX; cbn in K; contradiction]. rewrite Eg in MX. cbn in MX, K. rewrite dot_between in MX by vl m. lra.
Qed.

(** h at T v + a *)
Lemma tround_h : forall r g, exact_tround n T P G r -> 0 < r_eps r -> length (r_center r) = n -> G (r_primal r) = Fin g -> h (t_aff T (r_dual r)) = Fin (dot (t_aff T (r_dual r)) (r_primal r) - g).
Proof.
  intros r g ER HE Lc Eg. destruct (tround_parts r ER) as (Lu & Lv & _). assert (La := taff_len _ Lv). destruct HC as [_ HC']. specialize (HC' _ La). fold m in HC'.
  assert (V : forall w gw, length w = m -> G w = Fin gw -> dot (t_aff T (r_dual r)) w - gw <= dot (t_aff T (r_dual r)) (r_primal r) - g). { intros w gw Lw Ew. assert (K := tround_dual r g w gw ER HE Lc Lw Eg Ew). rewrite dot_sub_r in K by vl m. lra. }
  destruct (h (t_aff T (r_dual r))) as [hw|].
  - destruct HC' as [A B]. f_equal. apply Rle_antisym; [|apply (A _ g); auto]. apply le_eps. intros e He. destruct (B e He) as (z & c & Lz & Ez & Hz). specialize (V z c Lz Ez). lra.
  - exfalso. destruct (HC' (dot (t_aff T (r_dual r)) (r_primal r) - g)) as (z & c & Lz & Ez & Hz). specialize (V z c Lz Ez). lra.
Qed.
(** An exact round is an exact proximal step for P(v) + h(Tv + a). *)
Theorem tround_prox : forall r, exact_tround n T P G r -> 0 < r_eps r -> length (r_center r) = n ->
  exists c, composed_affine P h T (r_dual r) = Fin c /\ forall z, length z = n ->
    ext_le (Fin (c + r_eps r / 2 * (sqn (vsub (r_dual r) (r_center r)) + sqn (vsub z (r_dual r))))) (ext_add (composed_affine P h T z) (Fin (r_eps r / 2 * sqn (vsub z (r_center r))))).
Proof.
  intros r ER HE Lc. destruct (tround_parts r ER) as (Lu & Lv & (g & Eg) & (p & Ep)). assert (Eh := tround_h r g ER HE Lc Eg). unfold composed_affine. rewrite Ep, Eh. cbn [ext_add]. eexists. split; [reflexivity|].
  intros z Lz. destruct (P z) as [pz|] eqn:Ez; [|cbn; auto]. destruct (h (t_aff T z)) as [hz|] eqn:Ehz; [|cbn; auto]. cbn [ext_add ext_le]. destruct ER as (S & HS & _ & MU). destruct tf_adj as (AD & TI).
  assert (La := tadj_len _ Lu). assert (K := sup_strong n P (r_eps r) (r_center r) _ (r_dual r) CP HE Lc La MU p z pz Lz Ep Ez). rewrite !dot_opp_l in K. rewrite (dot_comm (t_adj T (r_primal r)) (r_dual r)), (dot_comm (t_adj T (r_primal r)) z) in K. destruct AD as (A1 & A2 & A3). rewrite <- (A3 (r_dual r) (r_primal r)), <- (A3 z (r_primal r)) in K by (auto; congruence).
  assert (Lt := taff_len _ Lz). assert (Ltz : length (t_lin T z) = m) by (apply A1; congruence). assert (Ltv : length (t_lin T (r_dual r)) = m) by (apply A1; congruence). destruct HC as [_ HC']. specialize (HC' _ Lt). fold m in HC'. rewrite Ehz in HC'. destruct HC' as [HC' _]. specialize (HC' _ g Lu Eg). rewrite !AF in * by auto. rewrite dot_add_l in * by vl m. lra.
Qed.
Theorem tround_towards : forall r s, exact_tround n T P G r -> 0 < r_eps r -> length (r_center r) = n -> is_argmin n (composed_affine P h T) s -> towards n s r.
Proof.
  intros r s ER HE Lc (Ls & (c0 & E0) & M). destruct (tround_parts r ER) as (Lu & Lv & _). split; auto. destruct (tround_prox r ER HE Lc) as (c & Ec & K). specialize (K s Ls). specialize (M _ Lv). rewrite E0, Ec in *. cbn in K, M. apply Rmult_le_reg_l with (r_eps r / 2); [lra|]. lra.
Qed.
Theorem tround_value : forall r z, exact_tround n T P G r -> 0 < r_eps r -> length (r_center r) = n -> length z = n ->
  ext_le (composed_affine P h T (r_dual r)) (ext_add (composed_affine P h T z) (Fin (r_eps r * norm (vsub z (r_dual r)) * norm (vsub (r_dual r) (r_center r))))).
Proof.
  intros r z ER HE Lc Lz. destruct (tround_parts r ER) as (Lu & Lv & _). destruct (tround_prox r ER HE Lc) as (c & Ec & K). specialize (K z Lz). rewrite Ec. destruct (composed_affine P h T z) as [cz|]; cbn in *; auto.
  assert (E : sqn (vsub z (r_center r)) = sqn (vsub z (r_dual r)) + sqn (vsub (r_dual r) (r_center r)) + 2 * dot (vsub z (r_dual r)) (vsub (r_dual r) (r_center r))).
  { rewrite !sqn_sub by vl n. rewrite dot_sub_l, !dot_sub_r by vl n. unfold sqn. ring. }
  rewrite E in K. assert (CS : dot (vsub z (r_dual r)) (vsub (r_dual r) (r_center r)) <= norm (vsub z (r_dual r)) * norm (vsub (r_dual r) (r_center r))) by (apply cauchy_schwarz; vl n). assert (r_eps r * dot (vsub z (r_dual r)) (vsub (r_dual r) (r_center r)) <= r_eps r * (norm (vsub z (r_dual r)) * norm (vsub (r_dual r) (r_center r)))) by (apply Rmult_le_compat_l; lra). lra.
Qed.
(** A round that does not move has solved the problem. *)
Theorem tround_fixed : forall r, exact_tround n T P G r -> 0 < r_eps r -> length (r_center r) = n -> r_dual r = r_center r -> is_argmin n (composed_affine P h T) (r_center r).
Proof.
  intros r ER HE Lc EQ. destruct (tround_prox r ER HE Lc) as (c & Ec & _). split; auto. rewrite <- EQ. split; [eauto|]. intros z Lz. assert (K := tround_value r z ER HE Lc Lz). rewrite EQ, vsub_self in K. rewrite EQ. assert (N0 : norm (zeros (length (r_center r))) = 0) by (unfold norm; rewrite sqn_zeros; apply sqrt_0). rewrite N0, Rmult_0_r in K. destruct (composed_affine P h T z) as [cz|]; [|destruct (composed_affine _ _ _ (r_center r)); cbn; auto]. cbn [ext_add] in K. rewrite Rplus_0_r in K. exact K.
Qed.
End TRounds.
