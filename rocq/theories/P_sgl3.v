(** Accuracy of the dual norm searches. *)
From Coq Require Import Reals List Lra Lia Psatz Bool ZArith.
From Verif Require Import Vec Spec M_quad M_prox M_semi M_shift M_mode SpecWeighted SpecPart SpecGroup M_mixed M_weighted M_group SpecGatom SpecSgl M_sgl
  P_quad P_prox P_part P_weighted P_gauge P_group P_group2 P_sgl P_search P_sgl2.
Import ListNotations.
Local Open Scope R_scope.

(** ** _gauge_function_dual_strong *)
Lemma one_nonneg : forall a w n v s, Forall (fun r => 0 <= r) a -> 0 <= w -> length v = n -> one_group a w v = Fin s -> 0 <= s.
Proof.
  intros a w n v s Ha Hw _ E. rewrite one_group_value in E. injection E as <-. unfold one_value. pose proof (norm_nonneg v).
  assert (0 <= vsum (vmul a (map Rabs v))).
  { clear - Ha. revert v. induction a as [|c a IH]; intros [|e v]; try (unfold vsum; simpl; lra). unfold vmul in *. cbn [map vzip]. rewrite vsum_cons. specialize (IH (Forall_inv_tail Ha) v).
    pose proof (Forall_inv Ha) as Hc. simpl in Hc. pose proof (Rabs_pos e). assert (0 <= c * Rabs e) by (apply Rmult_le_pos; auto). lra. }
  assert (0 <= w * norm v) by (apply Rmult_le_pos; auto). lra.
Qed.
Lemma one_exists : forall a w u, length a = length u -> Forall (fun r => 0 <= r) a -> 0 < w -> exists t, is_dual_norm (length u) (one_group a w) u t.
Proof.
  intros a w u La Ha Hw. pose proof (norm_nonneg u) as N. assert (Hb : 0 <= norm u / w) by (apply Rmult_le_pos; [auto|left; apply Rinv_0_lt_compat; auto]).
  apply dual_norm_exists with (b0 := norm u / w); auto.
  - intros v s Lv Ev. apply (one_nonneg a w (length u) v s); auto; lra.
  - intros v s Lv Ev. rewrite one_group_value in Ev. injection Ev as <-. pose proof (cauchy_schwarz u v ltac:(congruence)) as CS. pose proof (Rle_abs (dot u v)).
    assert (0 <= vsum (vmul a (map Rabs v))).
    { pose proof (one_nonneg a 0 (length u) v (one_value a 0 v) Ha ltac:(lra) Lv (one_group_value _ _ _)) as Q. unfold one_value in Q. lra. }
    unfold one_value. rewrite Rmult_plus_distr_l. replace (norm u / w * (w * norm v)) with (norm u * norm v) by (field; lra).
    assert (0 <= norm u / w * vsum (vmul a (map Rabs v))) by (apply Rmult_le_pos; auto). lra.
Qed.
Lemma norm_iff : forall n P u D t, (forall v s, length v = n -> P v = Fin s -> 0 <= s) -> is_dual_norm n P u D -> 0 <= t -> (D <= t <-> dual_ball n P t u).
Proof. intros n P u D t HP (H0 & H1 & H2) Ht. split; intros H; [apply ball_mono with D; auto|apply H2; auto]. Qed.
Lemma strong_iff : forall a w u D t, length a = length u -> Forall (fun r => 0 <= r) a -> 0 <= w -> is_dual_norm (length u) (one_group a (w + / 10 ^ 5)) u D -> 0 < t ->
  (inside_set_strong u t a w = true <-> D <= t).
Proof.
  intros a w u D t La Ha Hw HD Ht. assert (W : 0 <= w + / 10 ^ 5) by lra.
  rewrite (norm_iff (length u) _ u D t) by (auto; try lra; intros v s Lv Ev; eapply one_nonneg; eauto).
  rewrite one_ball_iff by (auto; lra). unfold inside_set_strong. destruct (Rle_dec _ _); split; auto; discriminate || tauto.
Qed.
Lemma bracket_close : forall r lo hi m D, 0 < r < 1 -> 0 < lo < hi -> lo <= m <= hi -> lo < D <= hi -> hi - lo <= r * (1 / 2) * (hi + lo) -> Rabs (m - D) <= r * (1 + r) * D.
Proof.
  intros r lo hi m D Hr Hl Hm HD Hw. assert (W : hi - lo <= r * (1 + r) * lo).
  { assert ((hi - lo) * (1 - r / 2) <= r * lo) by nra. assert (1 <= (1 + r) * (1 - r / 2)) by nra. 
    assert ((hi - lo) * 1 <= (hi - lo) * ((1 + r) * (1 - r / 2))) by (apply Rmult_le_compat_l; lra).
    assert ((1 + r) * ((hi - lo) * (1 - r / 2)) <= (1 + r) * (r * lo)) by (apply Rmult_le_compat_l; lra). lra. }
  assert (r * (1 + r) * lo <= r * (1 + r) * D) by (apply Rmult_le_compat_l; [nra|lra]). apply Rabs_le. lra.
Qed.
Lemma pow_2_20 : 1 <= / 10 ^ 6 * 2 ^ 20. Proof. lra. Qed.
Lemma pow_2_34 : 1 <= / 10 ^ 10 * 2 ^ 34. Proof. lra. Qed.
Theorem strong_accurate : forall u a w D fuel, length a = length u -> Forall (fun r => 0 <= r) a -> 0 <= w -> (20 < fuel)%nat ->
  is_dual_norm (length u) (one_group a (w + / 10 ^ 5)) u D ->
  exists e o, gauge_function_dual_strong u a w fuel = Ok (e, o) /\
    match e with
    | PInf => 2 ^ 50 < D /\ o = None
    | Fin m => (m = 0 /\ D <= (1 / 2) ^ 50 /\ o = None) \/
        ((1 / 2) ^ 50 < D <= 2 ^ 50 /\ Rabs (m - D) <= / 10 ^ 6 * (1 + / 10 ^ 6) * D /\
         exists l1 l2, o = Some (l1, l2) /\ length l1 = length u /\ (forall v : vec, length v = length u -> dot l1 v <= m * vsum (vmul a (map Rabs v))) /\
           match l2 with None => l1 = u | Some l => length l = length u /\ norm l = w * m /\ vsub u l1 = vscal (norm (vsub u l1) / (w * m)) l \/ w = 0 end)
    end.
Proof.
  intros u a w D fuel La Ha Hw Hf HD. unfold gauge_function_dual_strong.
  destruct (search_ok (fun t => Ok (inside_set_strong u t a w)) (fun t => inside_set_strong u t a w) (/ 10 ^ 6)) with (k := 50%nat) (n := 20%nat) (fuel := fuel) as (e & E & He); auto; try lia; try lra.
  rewrite E. cbn [rmap]. assert (P50 : 0 < (1 / 2) ^ 50) by (apply pow_lt; lra). assert (Q50 : 0 < 2 ^ 50) by (apply pow_lt; lra).
  assert (IFF : forall t, 0 < t -> inside_set_strong u t a w = false -> t < D).
  { intros t Ht F. apply Rnot_le_lt. intros C. apply (proj2 (strong_iff a w u D t La Ha Hw HD Ht)) in C. congruence. }
  assert (IFT : forall t, 0 < t -> inside_set_strong u t a w = true -> D <= t) by (intros t Ht F; apply (proj1 (strong_iff a w u D t La Ha Hw HD Ht)); auto).
  destruct e as [m|]; [|exists PInf, None; split; auto].
  destruct He as [[-> H]|(lo & hi & (B1 & B2 & B3 & B4 & B5) & H1 & H2 & _)].
  - destruct (Req_EM_T 0 0); [|tauto]. exists (Fin 0), None. split; auto.
  - destruct (Req_EM_T m 0); [lra|]. eexists. eexists. split; [reflexivity|]. right.
    specialize (IFF lo ltac:(lra) B2). specialize (IFT hi ltac:(lra) B3). split; [lra|]. split; [apply (bracket_close _ lo hi); auto; lra|].
    fold (soft_signed a m u). destruct (soft_parts a m u La ltac:(lra) Ha) as (A & B & C). pose proof (soft_signed_length a m u La) as Ls.
    eexists. eexists. split; [reflexivity|]. split; [vlen|]. split; [exact B|]. rewrite (vsub_vsub (length u)) by auto.
    destruct (Req_EM_T (norm (soft_signed a m u)) 0) as [Z|Z].
    + unfold norm in Z. apply sqrt_eq_0 in Z; [|apply sqn_nonneg]. apply sqn_eq_zero in Z. rewrite Z, Ls. apply vsub_zeros_r. auto.
    + destruct (Req_dec w 0) as [|Wn]; [right; auto|left]. pose proof (norm_nonneg (soft_signed a m u)) as N.
      set (s := soft_signed a m u) in *. set (ns := norm s) in *.
      assert (Em : map (fun b => b / ns * w * m) s = vscal (w * m / ns) s) by (unfold vscal; apply map_ext; intros; field; auto).
      rewrite Em. split; [unfold vscal; rewrite map_length; auto|]. split.
      * rewrite norm_scal. fold ns. rewrite Rabs_right; [field; auto|]. apply Rle_ge, Rmult_le_pos; [nra|]. left. apply Rinv_0_lt_compat. lra.
      * rewrite vscal_vscal. replace (ns / (w * m) * (w * m / ns)) with 1; [rewrite vscal_1; auto|]. field. repeat split; auto; lra.
Qed.
(** The group weight is not w but w + 1e-5. *)
Theorem strong_weight : forall u a w D D', length a = length u -> Forall (fun r => 0 <= r) a -> 0 < w -> is_dual_norm (length u) (one_group a w) u D ->
  is_dual_norm (length u) (one_group a (w + / 10 ^ 5)) u D' -> D' <= D <= (1 + / 10 ^ 5 / w) * D'.
Proof.
  intros u a w D D' La Ha Hw (D0 & D1 & D2) (E0 & E1 & E2). assert (G : forall v, 0 <= vsum (vmul a (map Rabs v))).
  { intros v. pose proof (one_nonneg a 0 (length v) v (one_value a 0 v) Ha ltac:(lra) eq_refl (one_group_value _ _ _)) as Q. unfold one_value in Q. lra. }
  assert (HE : 0 < / 10 ^ 5 / w) by (apply Rdiv_lt_0_compat; lra). split.
  - apply E2; auto. intros v s Lv Ev. rewrite one_group_value in Ev. injection Ev as <-. specialize (D1 v _ Lv (one_group_value a w v)). unfold one_value in *.
    pose proof (norm_nonneg v). assert (0 <= D * (/ 10 ^ 5 * norm v)) by (apply Rmult_le_pos; auto; apply Rmult_le_pos; lra). lra.
  - apply D2; [apply Rmult_le_pos; lra|]. intros v s Lv Ev. rewrite one_group_value in Ev. injection Ev as <-. specialize (E1 v _ Lv (one_group_value a (w + / 10 ^ 5) v)). unfold one_value in *.
    pose proof (norm_nonneg v). specialize (G v). eapply Rle_trans; [exact E1|]. rewrite (Rmult_comm _ D'), Rmult_assoc. apply Rmult_le_compat_l; auto.
    replace ((1 + / 10 ^ 5 / w) * (vsum (vmul a (map Rabs v)) + w * norm v)) with (vsum (vmul a (map Rabs v)) + (w + / 10 ^ 5) * norm v + / 10 ^ 5 / w * vsum (vmul a (map Rabs v))) by (field; lra).
    assert (0 <= / 10 ^ 5 / w * vsum (vmul a (map Rabs v))) by (apply Rmult_le_pos; lra). lra.
Qed.

(** ** Searches that test the distance to the ball *)
Section Distance.
Variables (n : nat) (P : vec -> ext) (u : vec) (D : R).
Hypothesis HP : forall v s, length v = n -> P v = Fin s -> 0 <= s.
Hypothesis Lu : length u = n.
Hypothesis HD : is_dual_norm n P u D.
Lemma resid_inside : forall t q, 0 <= t -> D <= t -> pcert n P t u q -> norm q = 0.
Proof.
  intros t q Ht H (_ & Lq & r & Er & H1 & H2). apply (norm_iff n P u D t HP HD Ht) in H. specialize (H q r Lq Er). rewrite dot_sub_l in H2 by vlen.
  unfold norm. replace (sqn q) with 0; [apply sqrt_0|]. pose proof (sqn_nonneg q) as N. unfold sqn in *. lra.
Qed.
Lemma resid_le : forall t q, 0 <= t -> pcert n P t u q -> norm q <= norm u.
Proof.
  intros t q Ht (_ & Lq & r & Er & H1 & H2). rewrite dot_sub_l in H2 by vlen. specialize (HP q r Lq Er). pose proof (cauchy_schwarz u q ltac:(congruence)) as CS. pose proof (Rle_abs (dot u q)).
  pose proof (norm_nonneg q) as N. pose proof (norm_nonneg u). assert (norm q * norm q <= norm u * norm q) by (rewrite norm_sq; unfold sqn; nra).
  destruct (Req_dec (norm q) 0) as [->|]; auto. apply Rmult_le_reg_r with (norm q); lra.
Qed.
Lemma resid_close : forall t q r, 0 <= t -> 0 < r -> (forall v s, length v = n -> P v = Fin s -> r * norm v <= s) -> pcert n P t u q -> D <= t + norm q / r.
Proof.
  intros t q r Ht Hr Hball (_ & Lq & r' & Er & H1 & H2). pose proof (norm_nonneg q) as N. assert (0 <= norm q / r) by (apply Rmult_le_pos; [auto|left; apply Rinv_0_lt_compat; auto]).
  apply (proj2 (proj2 HD)); [lra|]. intros v s Lv Ev. specialize (H1 v s Lv Ev). rewrite dot_sub_l in H1 by vlen.
  pose proof (cauchy_schwarz q v ltac:(congruence)) as CS. pose proof (Rle_abs (dot q v)). specialize (Hball v s Lv Ev).
  assert (norm q * norm v <= norm q / r * s).
  { apply Rle_trans with (norm q / r * (r * norm v)); [right; field; lra|]. apply Rmult_le_compat_l; auto. }
  lra.
Qed.
Variables (f : R -> bool) (E : R -> R).
Hypothesis HE : forall t, 0 < t -> 0 < E t.
Hypothesis Hf : forall t, 0 < t -> exists q, pcert n P t u q /\ (f t = true <-> norm q <= E t).
Lemma reject_below : forall t, 0 < t -> f t = false -> t < D.
Proof.
  intros t Ht F. apply Rnot_le_lt. intros C. destruct (Hf t Ht) as (q & Hq & H). pose proof (resid_inside t q ltac:(lra) C Hq) as Z. specialize (HE t Ht).
  assert (f t = true) by (apply H; lra). congruence.
Qed.
Lemma accept_above : forall t r, 0 < t -> 0 < r -> (forall v s, length v = n -> P v = Fin s -> r * norm v <= s) -> f t = true -> D <= t + E t / r.
Proof.
  intros t r Ht Hr Hball F. destruct (Hf t Ht) as (q & Hq & H). apply H in F. pose proof (resid_close t q r ltac:(lra) Hr Hball Hq).
  assert (norm q / r <= E t / r) by (apply Rmult_le_compat_r; auto; left; apply Rinv_0_lt_compat; auto). lra.
Qed.
End Distance.
