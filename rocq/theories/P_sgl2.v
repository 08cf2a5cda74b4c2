(** Dual balls and dual norms of the sparse group lasso. *)
From Coq Require Import Reals List Lra Lia Psatz Bool ZArith Classical.
From Verif Require Import Vec Spec M_quad M_prox M_semi M_shift M_mode SpecWeighted SpecPart SpecGroup M_mixed M_weighted M_group SpecGatom SpecSgl M_sgl
  P_quad P_prox P_part P_weighted P_gauge P_group P_group2 P_sgl.
Import ListNotations.
Local Open Scope R_scope.

(** ** One group *)
Definition soft_signed (a : vec) (b : R) (u : vec) : vec := vmul (soft_pos a b u) (map sgn u).
Lemma soft_pos_length : forall a b (u : vec), length a = length u -> length (soft_pos a b u) = length u.
Proof. intros. unfold soft_pos. apply vzip_length. auto. Qed.
Lemma soft_signed_length : forall a b (u : vec), length a = length u -> length (soft_signed a b u) = length u.
Proof. intros. unfold soft_signed, vmul. rewrite vzip_length; rewrite soft_pos_length by auto; auto. rewrite map_length. auto. Qed.
Definition one_value (a : vec) (w : R) (v : vec) : R := vsum (vmul a (map Rabs v)) + w * norm v.
Lemma wl1_fin : forall (a v : vec), wl1 (map Fin a) v = Fin (vsum (vmul a (map Rabs v))).
Proof. induction a as [|c a IH]; intros [|e v]; auto. cbn [map wl1 wterm]. rewrite IH. auto. Qed.
Lemma one_group_value : forall a w v, one_group a w v = Fin (one_value a w v).
Proof. intros. unfold one_group. rewrite wl1_fin, ell2_norm. auto. Qed.
Lemma soft_parts : forall a b u, length a = length u -> 0 <= b -> Forall (fun r => 0 <= r) a ->
  norm (soft_signed a b u) = norm (soft_pos a b u) /\
  (forall v : vec, length v = length u -> dot (vsub u (soft_signed a b u)) v <= b * vsum (vmul a (map Rabs v))) /\
  dot u (soft_signed a b u) = sqn (soft_pos a b u) + b * vsum (vmul a (map Rabs (soft_signed a b u))).
Proof.
  intros a b u La Hb Ha. unfold norm. cut (sqn (soft_signed a b u) = sqn (soft_pos a b u) /\
    (forall v : vec, length v = length u -> dot (vsub u (soft_signed a b u)) v <= b * vsum (vmul a (map Rabs v))) /\
    dot u (soft_signed a b u) = sqn (soft_pos a b u) + b * vsum (vmul a (map Rabs (soft_signed a b u)))).
  { intros (A & B & C). rewrite A. auto. }
  revert u La. induction a as [|c a IH]; intros [|e u] La; try discriminate.
  - split; auto. split; [|unfold dot, sqn, vsum; simpl; unfold dot, vsum; simpl; ring]. intros v _. unfold dot, vsum. simpl. destruct v; simpl; unfold vsum; simpl; lra.
  - destruct (IH (Forall_inv_tail Ha) u ltac:(simpl in La; congruence)) as (A & B & C). pose proof (Forall_inv Ha) as Hc. simpl in Hc.
    unfold soft_signed, soft_pos, vmul, vsub in *. cbn [map vzip].
    assert (Hbc : 0 <= b * c) by nra. set (s := Rmax (Rabs e - b * c) 0 * sgn e).
    assert (Es : s = soft (b * c) e) by (unfold s, soft; rewrite Rmult_comm; reflexivity).
    pose proof (soft_resid (b * c) e Hbc) as S1. pose proof (soft_align (b * c) e Hbc) as S2. pose proof (soft_abs (b * c) e Hbc) as S3. rewrite <- Es in S1, S2, S3.
    assert (Sq : s * s = Rmax (Rabs e - b * c) 0 * Rmax (Rabs e - b * c) 0).
    { unfold s. unfold sgn. destruct (Rlt_dec 0 e) as [H|H]; [ring|]. destruct (Rlt_dec e 0) as [H'|H']; [ring|]. assert (e = 0) by lra. subst e. rewrite Rabs_R0. rewrite Rmax_right by lra. ring. }
    split; [|split].
    + rewrite !sqn_cons. rewrite A, Sq. auto.
    + intros [|v0 v] Lv; [discriminate Lv|]. rewrite dot_cons. specialize (B v ltac:(simpl in Lv; congruence)). cbn [map vzip]. rewrite vsum_cons.
      pose proof (Rle_abs ((e - s) * v0)) as Q. rewrite Rabs_mult in Q. pose proof (Rabs_pos v0).
      assert (Rabs (e - s) * Rabs v0 <= b * c * Rabs v0) by (apply Rmult_le_compat_r; auto). lra.
    + rewrite dot_cons, C, sqn_cons. cbn [map vzip]. rewrite vsum_cons, <- Sq. replace (e * s) with ((e - s) * s + s * s) by ring. rewrite S2. ring.
Qed.
Theorem one_ball_iff : forall a w b u, length a = length u -> 0 <= b -> 0 <= w -> Forall (fun r => 0 <= r) a ->
  (dual_ball (length u) (one_group a w) b u <-> norm (soft_pos a b u) <= b * w).
Proof.
  intros a w b u La Hb Hw Ha. destruct (soft_parts a b u La Hb Ha) as (A & B & C). pose proof (soft_signed_length a b u La) as Ls. split.
  - intros H. specialize (H (soft_signed a b u) _ Ls (one_group_value _ _ _)). rewrite C in H. unfold one_value in H. rewrite A in H.
    pose proof (norm_nonneg (soft_pos a b u)) as N. rewrite <- norm_sq in H. destruct (Req_dec (norm (soft_pos a b u)) 0) as [->|Hn]; [nra|].
    apply Rmult_le_reg_r with (norm (soft_pos a b u)); [lra|]. lra.
  - intros H v s Lv Ev. rewrite one_group_value in Ev. injection Ev as <-. unfold one_value.
    specialize (B v Lv). rewrite dot_sub_l in B by vlen. pose proof (cauchy_schwarz (soft_signed a b u) v ltac:(congruence)) as CS. pose proof (Rle_abs (dot (soft_signed a b u) v)).
    rewrite A in CS. pose proof (norm_nonneg v). assert (norm (soft_pos a b u) * norm v <= b * w * norm v) by (apply Rmult_le_compat_r; auto). lra.
Qed.

(** ** Properties of dual balls and norms *)
Lemma ball_mono : forall n P b b' u, (forall v s, length v = n -> P v = Fin s -> 0 <= s) -> b <= b' -> dual_ball n P b u -> dual_ball n P b' u.
Proof. intros n P b b' u HP Hb H v s Lv Ev. specialize (H v s Lv Ev). specialize (HP v s Lv Ev). nra. Qed.
Lemma ball_limit : forall n P b u, (forall v s, length v = n -> P v = Fin s -> 0 <= s) -> (forall b', b < b' -> dual_ball n P b' u) -> dual_ball n P b u.
Proof.
  intros n P b u HP H v s Lv Ev. apply Rnot_lt_le. intros C. specialize (HP v s Lv Ev). destruct (Req_dec s 0) as [->|Hs].
  - specialize (H (b + 1) ltac:(lra) v 0 Lv Ev). lra.
  - set (e := (dot u v - b * s) / (2 * s)). assert (He : 0 < e) by (apply Rdiv_lt_0_compat; lra).
    specialize (H (b + e) ltac:(lra) v s Lv Ev). assert (e * s = (dot u v - b * s) / 2) by (unfold e; field; auto). lra.
Qed.
(** the dual norm exists as soon as some ball contains u *)
Theorem dual_norm_exists : forall n P u b0, (forall v s, length v = n -> P v = Fin s -> 0 <= s) -> 0 <= b0 -> dual_ball n P b0 u -> exists t, is_dual_norm n P u t.
Proof.
  intros n P u b0 HP Hb0 H0. set (E := fun r => 0 <= - r /\ dual_ball n P (- r) u).
  destruct (completeness E) as (m & Ub & Lub).
  - exists 0. intros r (A & _). lra.
  - exists (- b0). unfold E. rewrite Ropp_involutive. auto.
  - exists (- m). assert (M0 : m <= 0) by (apply Lub; intros r (A & _); lra). split; [lra|]. split.
    + apply ball_limit; auto. intros b' Hb'. destruct (Rlt_le_dec b' 0) as [|Hn]; [lra|].
      (* some r in E with - b' <= r *)
      destruct (classic (exists r, E r /\ - b' <= r)) as [(r & (A & B) & C)|N].
      * apply ball_mono with (- r); auto. lra.
      * exfalso. assert (m <= - b'); [|lra]. apply Lub. intros r Hr. destruct (Rle_dec r (- b')); auto. exfalso. apply N. exists r. split; auto. lra.
    + intros b Hb Hball. assert (- b <= m); [|lra]. apply Ub. unfold E. rewrite Ropp_involutive. auto.
Qed.
