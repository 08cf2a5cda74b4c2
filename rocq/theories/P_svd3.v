(** The two matrix norms on a singular value decomposition; polarity; transfer of minimizers. *)
From Coq Require Import Reals List Lra Lia Psatz Arith Bool.
From Verif Require Import M_affine P_affine P_affine2 Vec Spec SpecLoss M_quad M_prox M_semi M_shift SpecAtom SpecBase SpecMode M_mode SpecModed SpecPart SpecBlock P_quad P_calc P_sep P_cv P_prox P_semi P_shift P_conj P_cones P_gauge P_part P_mixed M_linear SpecLinear P_linear SpecSvd P_svd1 P_svd2.
Import ListNotations.
Local Open Scope R_scope.

Lemma op_lub : forall r c X, length X = (r * c)%nat -> is_lub (op_set r c X) (op_norm r c X).
Proof. intros r c X L. unfold op_norm. destruct (Nat.eq_dec (length X) (r * c)) as [E|N]; [|congruence]. apply proj2_sig. Qed.
Lemma nuc_lub : forall r c X, length X = (r * c)%nat -> is_lub (nuc_set r c X) (nuc_norm r c X).
Proof. intros r c X L. unfold nuc_norm. destruct (Nat.eq_dec (length X) (r * c)) as [E|N]; [|congruence]. apply proj2_sig. Qed.
Lemma op_bil : forall r c X u v, length X = (r * c)%nat -> length u = r -> length v = c -> dot X (rank1 u v) <= op_norm r c X * norm u * norm v.
Proof. intros r c X u v L Lu Lv. apply (op_le r c); auto. intros t Ht. apply (proj1 (op_lub r c X L)); auto. Qed.
Lemma op_nonneg : forall r c X, length X = (r * c)%nat -> 0 <= op_norm r c X.
Proof. intros r c X L. apply (proj1 (op_lub r c X L)), op_zero. Qed.
Lemma nuc_nonneg : forall r c X, length X = (r * c)%nat -> 0 <= nuc_norm r c X.
Proof. intros r c X L. apply (proj1 (nuc_lub r c X L)), nuc_zero. auto. Qed.
Lemma op_norm_le : forall r c X s, length X = (r * c)%nat -> 0 <= s -> (forall u v, length u = r -> length v = c -> dot X (rank1 u v) <= s * norm u * norm v) -> op_norm r c X <= s.
Proof.
  intros r c X s L Hs H. apply (proj2 (op_lub r c X L)). intros t (u & v & Lu & Lv & Nu & Nv & ->). apply Rle_trans with (1 := H u v Lu Lv). pose proof (norm_nonneg u). pose proof (norm_nonneg v).
  assert (norm u * norm v <= 1) by nra. nra.
Qed.
Lemma nuc_dual : forall r c X Y, length X = (r * c)%nat -> length Y = (r * c)%nat -> op_norm r c Y <= 1 -> dot X Y <= nuc_norm r c X.
Proof. intros r c X Y LX LY H. apply (proj1 (nuc_lub r c X LX)). exists Y. split; auto. split; auto. intros t Ht. apply Rle_trans with (2 := H). apply (proj1 (op_lub r c Y LY)); auto. Qed.
Lemma op_scal : forall r c X t, length X = (r * c)%nat -> 0 <= t -> op_norm r c (vscal t X) = t * op_norm r c X.
Proof.
  assert (K : forall r c X t, length X = (r * c)%nat -> 0 <= t -> op_norm r c (vscal t X) <= t * op_norm r c X).
  { intros r c X t L Ht. pose proof (op_nonneg r c X L). apply op_norm_le; [rewrite vscal_length; auto|nra|]. intros u v Lu Lv. rewrite dot_scal_l. pose proof (op_bil r c X u v L Lu Lv). nra. }
  intros r c X t L Ht. apply Rle_antisym; [apply K; auto|]. destruct (Req_dec t 0) as [->|N].
  - rewrite Rmult_0_l. apply op_nonneg. rewrite vscal_length; auto.
  - pose proof (K r c (vscal t X) (/ t) ltac:(rewrite vscal_length; auto) ltac:(apply Rlt_le, Rinv_0_lt_compat; lra)) as H. rewrite vscal_vscal in H. replace (/ t * t) with 1 in H by (field; auto). rewrite vscal_1 in H.
    apply Rmult_le_compat_l with (r := t) in H; auto. replace (t * (/ t * op_norm r c (vscal t X))) with (op_norm r c (vscal t X)) in H by (field; auto). auto.
Qed.
Lemma nuc_norm_le : forall r c X s, length X = (r * c)%nat -> (forall Y, length Y = (r * c)%nat -> op_norm r c Y <= 1 -> dot X Y <= s) -> nuc_norm r c X <= s.
Proof.
  intros r c X s L H. apply (proj2 (nuc_lub r c X L)). intros t (Y & LY & HY & ->). apply H; auto. apply (proj2 (op_lub r c Y LY)). intros t Ht. auto.
Qed.
Lemma nuc_scal : forall r c X t, length X = (r * c)%nat -> 0 <= t -> nuc_norm r c (vscal t X) = t * nuc_norm r c X.
Proof.
  assert (K : forall r c X t, length X = (r * c)%nat -> 0 <= t -> nuc_norm r c (vscal t X) <= t * nuc_norm r c X).
  { intros r c X t L Ht. apply nuc_norm_le; [rewrite vscal_length; auto|]. intros Y LY HY. rewrite dot_scal_l. apply Rmult_le_compat_l; auto. apply nuc_dual; auto. }
  intros r c X t L Ht. apply Rle_antisym; [apply K; auto|]. destruct (Req_dec t 0) as [->|N].
  - rewrite Rmult_0_l. apply nuc_nonneg. rewrite vscal_length; auto.
  - pose proof (K r c (vscal t X) (/ t) ltac:(rewrite vscal_length; auto) ltac:(apply Rlt_le, Rinv_0_lt_compat; lra)) as H. rewrite vscal_vscal in H. replace (/ t * t) with 1 in H by (field; auto). rewrite vscal_1 in H.
    apply Rmult_le_compat_l with (r := t) in H; auto. replace (t * (/ t * nuc_norm r c (vscal t X))) with (nuc_norm r c (vscal t X)) in H by (field; auto). auto.
Qed.
Lemma op_zero_is : forall r c Y, length Y = (r * c)%nat -> op_norm r c Y <= 0 -> Y = zeros (r * c).
Proof.
  intros r c Y L H. assert (E : op_norm r c Y = 0) by (pose proof (op_nonneg r c Y L); lra). apply bil_zero; auto. intros u v Lu Lv.
  pose proof (op_bil r c Y u v L Lu Lv) as H1. pose proof (op_bil r c Y (vscal (-1) u) v L ltac:(rewrite vscal_length; auto) Lv) as H2. rewrite E in *.
  replace (rank1 (vscal (-1) u) v) with (vscal (-1 * 1) (rank1 u v)) in H2 by (rewrite <- rank1_scal, vscal_1; auto). rewrite dot_scal_r in H2. lra.
Qed.
Theorem holder : forall r c X Y, length X = (r * c)%nat -> length Y = (r * c)%nat -> dot X Y <= nuc_norm r c X * op_norm r c Y.
Proof.
  intros r c X Y LX LY. pose proof (op_nonneg r c Y LY). pose proof (nuc_nonneg r c X LX). destruct (Rle_lt_dec (op_norm r c Y) 0) as [Z|Z].
  - pose proof (op_zero_is r c Y LY Z) as E. replace (dot X Y) with 0 by (rewrite E; symmetry; apply dot_zeros_r). nra.
  - pose proof (nuc_dual r c X (vscal (/ op_norm r c Y) Y) LX ltac:(rewrite vscal_length; auto)) as D. rewrite op_scal, Rinv_l, dot_scal_r in D by (auto; try lra; apply Rlt_le, Rinv_0_lt_compat; auto).
    specialize (D ltac:(lra)). apply Rmult_le_compat_r with (r := op_norm r c Y) in D; [|lra]. replace (/ op_norm r c Y * dot X Y * op_norm r c Y) with (dot X Y) in D by (field; lra). auto.
Qed.

Section Frame.
Variables (r c : nat) (us vs : list vec).
Hypothesis Luv : length us = length vs.
Hypothesis Ou : orthonormal r us.
Hypothesis Ov : orthonormal c vs.
Local Notation n := (r * c)%nat (only parsing).
Local Notation k := (length us) (only parsing).
Definition coefs (Y : vec) : vec := mat_vec (rank1s us vs) Y.
Lemma coefs_length : forall Y, length (coefs Y) = k.
Proof. intros Y. unfold coefs. rewrite mv_length, rank1s_length; auto. Qed.
Lemma coefs_nth : forall Y i, (i < k)%nat -> nth i (coefs Y) 0 = dot Y (rank1 (row us i) (row vs i)).
Proof. intros Y i Hi. unfold coefs. rewrite nth_mat_vec by (rewrite rank1s_length; auto). rewrite row_rank1s by auto. apply dot_comm. Qed.
Lemma coefs_usv : forall d, length d = k -> coefs (usv n us d vs) = d.
Proof. intros d Ld. unfold coefs, usv. apply mv_tvec; [apply rank1s_orth; auto|rewrite rank1s_length; auto]. Qed.
Lemma dot_usv_coefs : forall d Y, length d = k -> length Y = n -> dot (usv n us d vs) Y = dot d (coefs Y).
Proof.
  intros d Y Ld LY. unfold usv, coefs. rewrite (dot_comm d). rewrite (mat_adjoint n) by (auto; first [apply rows_length; apply rank1s_orth; auto|rewrite rank1s_length; auto]). apply dot_comm.
Qed.
Lemma unit_norm : forall m B i, orthonormal m B -> (i < length B)%nat -> norm (row B i) = 1.
Proof. intros m B i O Hi. unfold norm. unfold sqn. rewrite (proj2 O i i Hi Hi). destruct (Nat.eq_dec i i); [|congruence]. apply sqrt_1. Qed.
Lemma coefs_op : forall Y, length Y = n -> Forall (fun a => Rabs a <= op_norm r c Y) (coefs Y).
Proof.
  intros Y LY. apply Forall_forall. intros a I. apply (In_nth _ _ 0) in I. destruct I as (i & Hi & <-). rewrite coefs_length in Hi. rewrite coefs_nth by auto.
  assert (Lu := proj1 Ou i Hi). assert (Hi' : (i < length vs)%nat) by (lia). assert (Lv := proj1 Ov i Hi').
  pose proof (op_bil r c Y _ _ LY Lu Lv) as H1. pose proof (op_bil r c Y (vscal (-1) (row us i)) _ LY ltac:(rewrite vscal_length; auto) Lv) as H2.
  replace (rank1 (vscal (-1) (row us i)) (row vs i)) with (vscal (-1 * 1) (rank1 (row us i) (row vs i))) in H2 by (rewrite <- rank1_scal, vscal_1; auto). rewrite dot_scal_r in H2.
  rewrite norm_scal in H2. rewrite (unit_norm r) in H1, H2 by auto. rewrite (unit_norm c) in H1, H2 by auto. rewrite Rabs_left in H2 by lra. apply Rabs_le. lra.
Qed.
Lemma op_usv_le : forall d s, length d = k -> 0 <= s -> Forall (fun a => Rabs a <= s) d -> op_norm r c (usv n us d vs) <= s.
Proof.
  intros d s Ld Hs F. apply op_norm_le; auto; [apply usv_length; auto|]. intros u v Lu Lv. rewrite usv_bil by auto.
  pose proof (bessel r us Ou u Lu) as B1. pose proof (bessel c vs Ov v Lv) as B2. set (a := mat_vec us u) in *. set (b := mat_vec vs v) in *.
  assert (La : length a = k) by apply mv_length. assert (Lb : length b = k) by (unfold b; rewrite mv_length; auto).
  assert (E : sum_over (length us) (fun i => nth i d 0 * (dot (row us i) u * dot (row vs i) v)) = dot (vmul d a) b).
  { rewrite (dot_index k) by (auto; unfold vmul; rewrite vzip_length; congruence). apply sum_over_ext. intros i Hi. unfold vmul. rewrite (nth_zip0 _ _ _ k) by (auto; congruence).
    unfold a, b. rewrite !nth_mat_vec by (auto; rewrite <- Luv; auto). ring. }
  rewrite E. assert (Lda : length (vmul d a) = k) by (unfold vmul; rewrite vzip_length; congruence). pose proof (cauchy_schwarz (vmul d a) b ltac:(congruence)) as CS.
  assert (M : sqn (vmul d a) <= s * s * sqn a).
  { rewrite !(sqn_index k) by auto. rewrite <- sum_over_scal. apply sum_over_le. intros i Hi. unfold vmul. rewrite (nth_zip0 _ _ _ k) by (auto; congruence).
    assert (Q : Rabs (nth i d 0) <= s). { apply (proj1 (Forall_forall _ _) F). apply nth_In. rewrite Ld. auto. }
    assert (nth i d 0 * nth i d 0 <= s * s). { pose proof (Rabs_pos (nth i d 0)). replace (nth i d 0 * nth i d 0) with (Rabs (nth i d 0) * Rabs (nth i d 0)); [nra|]. rewrite <- Rabs_mult. apply Rabs_pos_eq. nra. }
    pose proof (Rle_0_sqr (nth i a 0)). unfold Rsqr in *. nra. }
  assert (N1 : norm (vmul d a) <= s * norm u). { apply norm_le_iff; [pose proof (norm_nonneg u); nra|]. pose proof (norm_sq u). assert (s * s * sqn a <= s * s * sqn u) by nra. nra. }
  assert (N2 : norm b <= norm v). { apply norm_le_iff; [apply norm_nonneg|]. rewrite norm_sq. auto. }
  pose proof (norm_nonneg (vmul d a)). pose proof (norm_nonneg b). pose proof (norm_nonneg u). nra.
Qed.
Lemma op_usv : forall d, length d = k -> op_norm r c (usv n us d vs) = ellinf d.
Proof.
  intros d Ld. apply Rle_antisym; [apply op_usv_le; auto; [apply ellinf_nonneg|apply ellinf_ge]|].
  assert (L : length (usv n us d vs) = n) by (apply usv_length; auto). apply ellinf_le; [apply op_nonneg; auto|]. pose proof (coefs_op _ L) as F. rewrite (coefs_usv d Ld) in F. auto.
Qed.
Lemma sgn_le : forall d, Forall (fun a => Rabs a <= 1) (map sgn d).
Proof. intros d. apply Forall_forall. intros a I. apply in_map_iff in I. destruct I as (b & <- & _). unfold sgn. destruct (Rlt_dec 0 b); [rewrite Rabs_R1; lra|]. destruct (Rlt_dec b 0); [rewrite Rabs_left; lra|rewrite Rabs_R0; lra]. Qed.
Lemma dot_sgn : forall d, dot d (map sgn d) = ell1 d.
Proof. induction d as [|a d IH]; [reflexivity|]. cbn [map]. rewrite dot_cons, ell1_cons, IH. f_equal. unfold sgn. destruct (Rlt_dec 0 a); [rewrite Rabs_right; lra|]. destruct (Rlt_dec a 0); [rewrite Rabs_left; lra|]. replace a with 0 by lra. rewrite Rabs_R0. lra. Qed.
Lemma coefs_nuc : forall Y, length Y = n -> ell1 (coefs Y) <= nuc_norm r c Y.
Proof.
  intros Y LY. assert (L : length (map sgn (coefs Y)) = k) by (rewrite map_length; apply coefs_length).
  pose proof (nuc_dual r c Y (usv n us (map sgn (coefs Y)) vs) LY ltac:(apply usv_length; auto) ltac:(apply op_usv_le; [auto|lra|apply sgn_le])) as H.
  rewrite dot_comm, dot_usv_coefs, dot_comm, dot_sgn in H by auto. auto.
Qed.
Lemma nuc_usv : forall d, length d = k -> nuc_norm r c (usv n us d vs) = ell1 d.
Proof.
  intros d Ld. assert (L : length (usv n us d vs) = n) by (apply usv_length; auto). apply Rle_antisym.
  - apply nuc_norm_le; auto. intros Y LY HY. rewrite dot_usv_coefs by auto. pose proof (hold1 d (coefs Y) ltac:(rewrite coefs_length; auto)) as H.
    assert (ellinf (coefs Y) <= 1). { apply ellinf_le; [lra|]. eapply Forall_impl; [|apply coefs_op; auto]. cbn. intros. lra. }
    pose proof (ell1_nonneg d). nra.
  - pose proof (coefs_nuc _ L) as F. rewrite (coefs_usv d Ld) in F. auto.
Qed.
End Frame.

(** ** Duality of the two norms *)
Definition nuc_fun (r c : nat) (X : vec) : ext := Fin (nuc_norm r c X).
Definition op_fun (r c : nat) (X : vec) : ext := Fin (op_norm r c X).
Lemma zeros_scal : forall m, zeros m = vscal 0 (zeros m). Proof. intros. rewrite vscal_zeros. auto. Qed.
Lemma nuc_gauge : forall r c, gauge (r * c) (nuc_fun r c).
Proof.
  intros r c. split; unfold nuc_fun.
  - intros x t L E. injection E as <-. apply nuc_nonneg; auto.
  - intros t x q L Ht E. injection E as <-. rewrite nuc_scal; auto.
  - rewrite zeros_scal, nuc_scal by (rewrite ?zeros_length; auto; lra). f_equal. ring.
Qed.
Lemma op_gauge : forall r c, gauge (r * c) (op_fun r c).
Proof.
  intros r c. split; unfold op_fun.
  - intros x t L E. injection E as <-. apply op_nonneg; auto.
  - intros t x q L Ht E. injection E as <-. rewrite op_scal; auto.
  - rewrite zeros_scal, op_scal by (rewrite ?zeros_length; auto; lra). f_equal. ring.
Qed.
Lemma ellinf_attained : forall d, Forall (fun a => 0 <= a) d -> descending d -> ellinf d = nth 0 d 0.
Proof.
  intros d P D. apply Rle_antisym.
  - apply ellinf_le; [destruct d; cbn; [lra|inversion P; auto]|]. destruct d as [|a d]; constructor; cbn [nth].
    + inversion P. rewrite Rabs_right; lra.
    + assert (K : forall d a, Forall (fun a => 0 <= a) d -> descending (a :: d) -> Forall (fun b => Rabs b <= a) d).
      { clear. induction d as [|b d IH]; intros a P D; constructor; inversion P; subst; cbn in D; destruct D as [D1 D2].
        - rewrite Rabs_right; lra.
        - eapply Forall_impl; [|apply (IH b); auto]. cbn. intros. lra. }
      inversion P. apply K; auto.
  - destruct d as [|a d]; [apply ellinf_nonneg|]. pose proof (ellinf_ge (a :: d)) as F. inversion F; subst. cbn [nth]. pose proof (Rle_abs a). lra.
Qed.
Theorem nuc_op_polar : forall r c, polar_pair (r * c) (nuc_fun r c) (op_fun r c).
Proof.
  intros r c. split; [apply nuc_gauge|apply op_gauge| |].
  - intros x u t s Lx Lu E1 E2. injection E1 as <-. injection E2 as <-. rewrite dot_comm. apply holder; auto.
  - intros X L. unfold op_fun. destruct (svd_exists r c X L) as (us & d & vs & Sv). pose proof (sv_u _ _ _ _ _ _ Sv) as Lu. pose proof (sv_v _ _ _ _ _ _ Sv) as Lv. pose proof (sv_d _ _ _ _ _ _ Sv) as Ld.
    assert (Luv : length us = length vs) by congruence. assert (Lk : length d = length us) by congruence. pose proof (sv_ou _ _ _ _ _ _ Sv) as Ou. pose proof (sv_ov _ _ _ _ _ _ Sv) as Ov. pose proof (sv_eq _ _ _ _ _ _ Sv) as E.
    assert (En : op_norm r c X = nth 0 d 0). { rewrite E, (op_usv r c us vs) by auto. apply ellinf_attained; [apply Sv|apply Sv]. }
    destruct d as [|a d'].
    + exists (zeros (r * c)), 0. rewrite zeros_length. split; auto. split; [apply (ga_zero _ _ (nuc_gauge r c))|]. split; [lra|]. rewrite dot_zeros_r, En. auto.
    + set (e := 1 :: zeros (length d')). assert (Le : length e = length us) by (unfold e; cbn [length]; rewrite zeros_length; auto).
      exists (usv (r * c) us e vs), 1. split; [apply usv_length; auto|]. unfold nuc_fun. rewrite (nuc_usv r c us vs) by auto. split; [|split; [lra|]].
      * f_equal. unfold e. rewrite ell1_cons, Rabs_R1. assert (Z : forall m, ell1 (zeros m) = 0) by (induction m as [|m IH]; [reflexivity|]; cbn [zeros repeat]; rewrite ell1_cons, Rabs_R0; fold (zeros m); lra). rewrite Z. lra.
      * rewrite E at 1. rewrite dot_comm. rewrite (dot_usv_coefs r c us vs) by (auto; apply usv_length; auto). rewrite (coefs_usv r c us vs) by auto. unfold e. rewrite dot_cons, dot_zeros_l, En. cbn [nth]. lra.
Qed.
Theorem op_nuc_polar : forall r c, polar_pair (r * c) (op_fun r c) (nuc_fun r c).
Proof.
  intros r c. apply polar_swap; [apply nuc_op_polar|]. intros X L. unfold nuc_fun. destruct (svd_exists r c X L) as (us & d & vs & Sv). pose proof (sv_u _ _ _ _ _ _ Sv) as Lu. pose proof (sv_v _ _ _ _ _ _ Sv) as Lv. pose proof (sv_d _ _ _ _ _ _ Sv) as Ld.
  assert (Luv : length us = length vs) by congruence. assert (Lk : length d = length us) by congruence. pose proof (sv_ou _ _ _ _ _ _ Sv) as Ou. pose proof (sv_ov _ _ _ _ _ _ Sv) as Ov. pose proof (sv_eq _ _ _ _ _ _ Sv) as E.
  assert (Ls : length (map sgn d) = length us) by (rewrite map_length; auto).
  exists (usv (r * c) us (map sgn d) vs), (op_norm r c (usv (r * c) us (map sgn d) vs)). split; [apply usv_length; auto|]. split; auto. split; [apply op_usv_le; auto; [lra|apply sgn_le]|].
  rewrite E at 1. rewrite (dot_usv_coefs r c us vs) by (auto; apply usv_length; auto). rewrite (coefs_usv r c us vs), dot_sgn by auto. rewrite E. rewrite (nuc_usv r c us vs) by auto. auto.
Qed.
Lemma nuc_even : forall r c, even_gauge (r * c) (nuc_fun r c).
Proof.
  assert (K : forall r c X, length X = (r * c)%nat -> nuc_norm r c (vopp X) <= nuc_norm r c X).
  { intros r c X L. apply nuc_norm_le; [rewrite vopp_length; auto|]. intros Y LY HY. replace (dot (vopp X) Y) with (dot X (vopp Y)) by (rewrite dot_opp_r, dot_opp_l; auto). apply nuc_dual; auto; [rewrite vopp_length; auto|].
    apply op_norm_le; [rewrite vopp_length; auto|lra|]. intros u v Lu Lv. pose proof (op_bil r c Y (vscal (-1) u) v LY ltac:(rewrite vscal_length; auto) Lv) as H2.
    replace (rank1 (vscal (-1) u) v) with (vscal (-1 * 1) (rank1 u v)) in H2 by (rewrite <- rank1_scal, vscal_1; auto). rewrite dot_scal_r, norm_scal, Rabs_left in H2 by lra. rewrite dot_opp_l.
    pose proof (norm_nonneg u). pose proof (norm_nonneg v). assert (0 <= norm u * norm v) by nra. nra. }
  intros r c X L. unfold nuc_fun. f_equal. apply Rle_antisym; [apply K; auto|]. rewrite <- (vopp_vopp X) at 1. apply K. rewrite vopp_length; auto.
Qed.
Lemma op_even : forall r c, even_gauge (r * c) (op_fun r c).
Proof.
  assert (K : forall r c X, length X = (r * c)%nat -> op_norm r c (vopp X) <= op_norm r c X).
  { intros r c Y LY. pose proof (op_nonneg r c Y LY). apply op_norm_le; [rewrite vopp_length; auto|lra|]. intros u v Lu Lv. pose proof (op_bil r c Y (vscal (-1) u) v LY ltac:(rewrite vscal_length; auto) Lv) as H2.
    replace (rank1 (vscal (-1) u) v) with (vscal (-1 * 1) (rank1 u v)) in H2 by (rewrite <- rank1_scal, vscal_1; auto). rewrite dot_scal_r, norm_scal, Rabs_left in H2 by lra. rewrite dot_opp_l. lra. }
  intros r c X L. unfold op_fun. f_equal. apply Rle_antisym; [apply K; auto|]. rewrite <- (vopp_vopp X) at 1. apply K. rewrite vopp_length; auto.
Qed.

(** ** Minimizing over coefficients in an orthonormal family is minimizing over everything *)
Section Transfer.
Variables (n : nat) (B : list vec).
Hypothesis O : orthonormal n B.
Let syn (d : vec) : vec := mat_tvec n B d.
Lemma syn_length : forall d, length (syn d) = n. Proof. intros. apply P_affine.mat_tvec_length. apply (rows_length n B O). Qed.
Lemma syn_split : forall d V, length d = length B -> length V = n -> sqn (vsub (syn d) V) = sqn (vsub d (mat_vec B V)) + sqn (vsub V (syn (mat_vec B V))).
Proof.
  intros d V Ld LV. assert (Lm : length (mat_vec B V) = length B) by apply mv_length. pose proof (syn_length d) as L1. pose proof (syn_length (mat_vec B V)) as L2.
  assert (A : forall a b, length a = length B -> dot (syn a) b = dot a (mat_vec B b) \/ length b <> n). { intros a b La. destruct (Nat.eq_dec (length b) n); auto. left. unfold syn. rewrite (dot_comm a), (mat_adjoint n) by (auto; apply (rows_length n B O)). apply dot_comm. }
  assert (A' : forall a b, length a = length B -> length b = n -> dot (syn a) b = dot a (mat_vec B b)) by (intros a b La Lb; destruct (A a b La); tauto). clear A.
  assert (MS : forall a, length a = length B -> mat_vec B (syn a) = a) by (intros; apply (mv_tvec n B O); auto).
  rewrite !sqn_sub by congruence. pose proof (A' d V Ld LV) as E1. pose proof (A' d (syn d) Ld L1) as E2. pose proof (A' (mat_vec B V) V Lm LV) as E3. pose proof (A' (mat_vec B V) (syn (mat_vec B V)) Lm L2) as E4.
  rewrite MS in E2, E4 by auto. rewrite (dot_comm V). unfold sqn in *. rewrite E1, E2, E3, E4. ring.
Qed.
Lemma transfer_proj : forall (S Sk : vec -> Prop) d p, length d = length B -> (forall a, length a = length B -> Sk a -> S (syn a)) -> (forall V, length V = n -> S V -> Sk (mat_vec B V)) ->
  is_proj (length B) Sk d p -> is_proj n S (syn d) (syn p).
Proof.
  intros S Sk d p Ld H1 H2 (Lp & Ip & H). split; [apply syn_length|]. split; [auto|]. intros V LV IV. pose proof (mv_length B V) as Lm. destruct (H _ Lm (H2 V LV IV)) as [Ha Hb].
  assert (E : sqn (vsub (syn d) (syn p)) = sqn (vsub d p)). { rewrite syn_split by (auto; apply syn_length). assert (MS : mat_vec B (syn p) = p) by (apply (mv_tvec n B O); auto). rewrite MS, vsub_self, sqn_zeros. ring. }
  rewrite E, syn_split by auto. pose proof (sqn_nonneg (vsub V (syn (mat_vec B V)))). split; [lra|]. intros E'. rewrite <- Hb by lra. apply vsub_eq_zero; [rewrite syn_length; auto|lra].
Qed.
Lemma transfer_prox : forall (h hk : vec -> ext) L d p, 0 < L -> length d = length B -> (forall a, length a = length B -> h (syn a) = hk a) -> (forall V, length V = n -> ext_le (hk (mat_vec B V)) (h V)) ->
  is_unique_argmin (length B) (prox_objective L d hk) p -> is_unique_argmin n (prox_objective L (syn d) h) (syn p).
Proof.
  intros h hk L d p HL Ld H1 H2 ((Lp & (q & Fp) & Hm) & Hu).
  assert (E : sqn (vsub (syn d) (syn p)) = sqn (vsub d p)). { rewrite syn_split by (auto; apply syn_length). assert (MS : mat_vec B (syn p) = p) by (apply (mv_tvec n B O); auto). rewrite MS, vsub_self, sqn_zeros. ring. }
  assert (E0 : prox_objective L (syn d) h (syn p) = prox_objective L d hk p) by (unfold prox_objective; rewrite E, H1; auto).
  split.
  - split; [apply syn_length|]. split; [exists q; rewrite E0; auto|]. intros V LV. rewrite E0. pose proof (Hm _ (mv_length B V)) as Ha. pose proof (H2 V LV) as Hb. unfold prox_objective in *. rewrite syn_split by auto.
    destruct (hk p) as [a|]; [|discriminate]. destruct (h V) as [b|]; cbn [ext_add ext_le]; auto. destruct (hk (mat_vec B V)) as [e|]; cbn [ext_add ext_le] in *; [|tauto]. pose proof (sqn_nonneg (vsub V (syn (mat_vec B V)))). nra.
  - intros V LV Hle. rewrite E0 in Hle. pose proof (Hm _ (mv_length B V)) as Ha. pose proof (H2 V LV) as Hb. specialize (Hu _ (mv_length B V)). unfold prox_objective in *. rewrite syn_split in Hle by auto.
    destruct (hk p) as [a|]; [|discriminate]. destruct (h V) as [b|]; cbn [ext_add ext_le] in *; [|tauto]. destruct (hk (mat_vec B V)) as [e|]; cbn [ext_add ext_le] in *; [|tauto]. pose proof (sqn_nonneg (vsub V (syn (mat_vec B V)))).
    rewrite <- Hu by nra. apply vsub_eq_zero; [rewrite syn_length; auto|nra].
Qed.
End Transfer.
