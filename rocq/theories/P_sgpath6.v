(** The optimality check of sparse group lasso paths reports nothing at a minimizer, for weights that the search can resolve. *)
From Coq Require Import Reals List Lra Lia Psatz Bool ZArith.
From Verif Require Import Vec Spec SpecConvex M_quad M_prox M_semi SpecPart SpecGroup M_mixed M_weighted M_group SpecSgl M_sgl P_quad P_prox P_calc P_part P_weighted P_gauge P_group P_group2 P_sgl P_search P_sgl2 P_sgl3 P_sgl5
  M_loss SpecLoss SpecSmooth P_smooth P_fista M_path SpecPath M_gpath SpecGpath SpecSgpath P_path P_gpath P_gpath3 P_sgpath P_sgpath2 P_sgpath4 P_sgpath5.
Import ListNotations.
Local Open Scope R_scope.

(** u is lam times a subgradient of the penalty at s *)
Definition sstat (lam : R) (a : vec) (w : R) (u s : vec) : Prop := forall y, length y = length u -> dot u (vsub y s) <= lam * (group_pen a w y - group_pen a w s).
Lemma signed_step_sq : forall a u b b', length a = length u -> Forall (fun r => 0 <= r) a ->
  sqn (vsub (soft_signed a b u) (soft_signed a b' u)) <= sqn (vscal (b' - b) a).
Proof.
  induction a as [|c a IH]; intros [|e u] b b' La Ha; try discriminate; [unfold sqn, dot, vsum; simpl; lra|].
  unfold soft_signed, soft_pos, vsub, vscal, vmul in *. cbn [map vzip]. rewrite !sqn_cons. specialize (IH u b b' ltac:(simpl in La; congruence) (Forall_inv_tail Ha)).
  pose proof (Forall_inv Ha) as Hc. cbn beta in Hc. set (p := Rmax (Rabs e - b * c) 0). set (q := Rmax (Rabs e - b' * c) 0).
  assert (H : (p - q) * (p - q) <= ((b' - b) * c) * ((b' - b) * c)). { apply Rsqr_le_abs_1. apply Rabs_le. assert (A := Rle_abs ((b' - b) * c)). assert (B := Rle_abs (- ((b' - b) * c))). rewrite Rabs_Ropp in B. assert (C := Rabs_pos ((b' - b) * c)). unfold p, q, Rmax. destruct (Rle_dec _ _), (Rle_dec _ _); lra. }
  assert ((p * sgn e - q * sgn e) * (p * sgn e - q * sgn e) <= (p - q) * (p - q)); [|lra]. replace ((p * sgn e - q * sgn e) * (p * sgn e - q * sgn e)) with ((sgn e * sgn e) * ((p - q) * (p - q))) by ring. rewrite <- (Rmult_1_l ((p - q) * (p - q))) at 2.
  apply Rmult_le_compat_r; [apply Rle_0_sqr|]. unfold sgn. destruct (Rlt_dec 0 e); [lra|]. destruct (Rlt_dec e 0); lra.
Qed.
Lemma signed_step : forall a u b b', length a = length u -> Forall (fun r => 0 <= r) a -> norm (vsub (soft_signed a b u) (soft_signed a b' u)) <= Rabs (b' - b) * norm a.
Proof. intros. rewrite <- norm_scal. unfold norm. apply sqrt_le_1_alt. apply signed_step_sq; auto. Qed.
Lemma off_stat : forall a u s m lam, length a = length u -> length s = length u -> Forall (fun r => 0 <= r) a -> 0 <= lam ->
  dot (vsub u (soft_signed a lam u)) s = lam * vsum (vmul a (map Rabs s)) -> sqn (off a u s m lam) <= sqn (vsub (soft_signed a lam u) (soft_signed a m u)).
Proof.
  induction a as [|c a IH]; intros [|e u] [|b s] m lam La Ls Ha Hl E; try discriminate; [unfold sqn, dot, vsum; simpl; lra|].
  assert (La' : length a = length u) by (simpl in La; congruence). assert (Ls' : length s = length u) by (simpl in Ls; congruence). pose proof (Forall_inv Ha) as Hc. cbn beta in Hc. 
  assert (T := proj1 (proj2 (soft_parts a lam u La' Hl (Forall_inv_tail Ha))) s Ls'). specialize (IH u s m lam La' Ls' (Forall_inv_tail Ha) Hl).
  unfold soft_signed, soft_pos, vsub, vmul in *. cbn [map vzip off] in *. rewrite dot_cons, vsum_cons in E. rewrite !sqn_cons.
  assert (Hlc : 0 <= lam * c) by (apply Rmult_le_pos; auto). assert (S1 := soft_resid (lam * c) e Hlc). unfold soft in S1. rewrite Rmult_comm in S1. set (p := Rmax (Rabs e - lam * c) 0 * sgn e) in *. set (q := Rmax (Rabs e - m * c) 0 * sgn e) in *.
  assert (Hd : (e - p) * b <= lam * c * Rabs b). { eapply Rle_trans; [apply Rle_abs|]. rewrite Rabs_mult. apply Rmult_le_compat_r; [apply Rabs_pos|auto]. }
  assert (E1 : (e - p) * b = lam * c * Rabs b) by lra. assert (IH' := IH ltac:(lra)). destruct (Req_EM_T b 0) as [Z|Z]; [assert (0 <= (p - q) * (p - q)) by apply Rle_0_sqr; lra|].
  rewrite <- (sign_abs b Z) in E1. assert (E2 : e - p = lam * c * np_sign b) by (apply Rmult_eq_reg_r with b; auto; lra). replace (e - q - c * np_sign b * lam) with (p - q) by lra. lra.
Qed.
Lemma stat_facts : forall a w u s lam, length a = length u -> length s = length u -> Forall (fun r => 0 <= r) a -> 0 < w -> 0 < lam -> norm s <> 0 -> sstat lam a w u s ->
  dual_ball (length u) (one_group a w) lam u /\ dot u s = lam * group_pen a w s /\ soft_signed a lam u = vscal (lam * w / norm s) s /\ dot (vsub u (soft_signed a lam u)) s = lam * vsum (vmul a (map Rabs s)).
Proof.
  intros a w u s lam La Ls Ha Hw Hl Hs St. assert (Hl0 : 0 <= lam) by lra.
  assert (P0 : group_pen a w (zeros (length u)) = 0). { unfold group_pen. rewrite norm_zeros. change (map Rabs (zeros (length u))) with (vabs (zeros (length u))). rewrite vabs_zeros, vmul_zeros_r, vsum_zeros'. ring. }
  assert (P2 : forall t x, 0 <= t -> group_pen a w (vscal t x) = t * group_pen a w x). { intros t x Ht. unfold group_pen. rewrite norm_scal, (Rabs_right t) by lra. assert (vsum (vmul a (map Rabs (vscal t x))) = t * vsum (vmul a (map Rabs x))); [|rewrite H; ring].
    clear -Ht. revert x. induction a as [|c a IH]; intros [|b x]; try (unfold vsum; simpl; ring). unfold vmul, vscal in *. cbn [map vzip]. rewrite !vsum_cons, IH, Rabs_mult, (Rabs_right t) by lra. ring. }
  assert (A1 := St (zeros (length u)) (zeros_length _)). assert (A2 := St (vscal 2 s) ltac:(unfold vscal; rewrite map_length; auto)). rewrite dot_sub_r in A1 by (rewrite zeros_length; auto). rewrite dot_sub_r in A2 by (unfold vscal; rewrite map_length; auto). rewrite dot_zeros_r, P0 in A1. rewrite dot_scal_r, P2 in A2 by lra.
  assert (E1 : dot u s = lam * group_pen a w s) by lra.
  assert (B1 : dual_ball (length u) (one_group a w) lam u). { intros y q Ly Eq. rewrite one_group_value in Eq. injection Eq as <-. rewrite <- group_pen_value. assert (K := St y Ly). rewrite dot_sub_r in K by congruence. lra. }
  assert (B2 := proj1 (one_ball_iff a w lam u La Hl0 ltac:(lra) Ha) B1). destruct (soft_parts a lam u La Hl0 Ha) as (N1 & N2 & _). rewrite <- N1 in B2. assert (Lx := soft_signed_length a lam u La). set (x := soft_signed a lam u) in *.
  assert (C1 := N2 s Ls). assert (C2 : dot x s <= norm x * norm s) by (apply cauchy_schwarz; congruence). assert (Ns := norm_nonneg s). assert (C3 : norm x * norm s <= lam * w * norm s) by (apply Rmult_le_compat_r; auto).
  assert (C4 : dot u s = dot (vsub u x) s + dot x s) by (rewrite dot_sub_l by congruence; ring). unfold group_pen in E1. assert (E2 : dot (vsub u x) s = lam * vsum (vmul a (map Rabs s))) by lra. assert (E3 : dot x s = lam * w * norm s) by lra.
  split; auto. split; [auto|]. split; auto. apply vsub_eq_zero; [unfold vscal; rewrite map_length; congruence|]. rewrite sqn_sub by (unfold vscal; rewrite map_length; congruence). rewrite dot_scal_r, E3. rewrite <- (norm_sq (vscal _ s)), <- (norm_sq x), norm_scal.
  assert (Q : 0 <= lam * w / norm s) by (apply Rmult_le_pos; [apply Rmult_le_pos; lra|left; apply Rinv_0_lt_compat; lra]). rewrite Rabs_right by lra. replace (lam * w / norm s * norm s) with (lam * w) by (field; auto). replace (lam * w / norm s * (lam * w * norm s)) with (lam * w * (lam * w)) by (field; auto).
  assert (X0 := norm_nonneg x). assert (norm x * norm x <= lam * w * (lam * w)) by (apply Rmult_le_compat; auto). lra.
Qed.
Lemma directions : forall x y, length x = length y -> norm x <> 0 -> norm y <> 0 -> norm (vsub (vscal (/ norm x) x) (vscal (/ norm y) y)) <= 2 * norm (vsub x y) / norm y.
Proof.
  intros x y L Hx Hy. assert (Nx := norm_nonneg x). assert (Ny := norm_nonneg y). set (p := norm x) in *. set (q := norm y) in *.
  assert (E : vsub (vscal (/ p) x) (vscal (/ q) y) = vadd (vscal ((q - p) / q) (vscal (/ p) x)) (vscal (/ q) (vsub x y))).
  { clear Nx Ny. clearbody p q. revert y L. induction x as [|b x IH]; intros [|e y] L; try discriminate; auto. unfold vsub, vadd, vscal in *. cbn [map vzip]. rewrite IH by (simpl in L; congruence). f_equal. field. auto. }
  rewrite E. eapply Rle_trans; [apply norm_triangle; unfold vsub, vscal; rewrite !map_length, vzip_length by auto; auto|]. rewrite (norm_scal ((q - p) / q)), (norm_scal (/ q)). unfold p at 2. rewrite unit_norm by auto. assert (I : 0 < / q) by (apply Rinv_0_lt_compat; lra).
  unfold Rdiv. rewrite Rabs_mult, (Rabs_right (/ q)) by lra. assert (K : Rabs (q - p) <= norm (vsub x y)).
  { assert (K1 : p <= q + norm (vsub x y)). { unfold p. replace x with (vadd y (vsub x y)) at 1 by (apply vadd_vsub; auto). unfold q. apply norm_triangle. unfold vsub. rewrite vzip_length; auto. }
    assert (K2 : q <= p + norm (vsub y x)). { unfold q. replace y with (vadd x (vsub y x)) at 1 by (apply vadd_vsub; auto). unfold p. apply norm_triangle. unfold vsub. rewrite vzip_length; auto. }
    assert (norm (vsub y x) = norm (vsub x y)) by (unfold norm; f_equal; apply sqn_vsub_sym; auto). apply Rabs_le. lra. }
  assert (Rabs (q - p) * / q <= norm (vsub x y) * / q) by (apply Rmult_le_compat_r; lra). lra.
Qed.
Theorem active_complete : forall a w u s lam tol fuel, (20 < fuel)%nat -> length a = length u -> length s = length u -> Forall (fun r => 0 <= r) a -> (1 / 2) ^ 49 <= lam <= 2 ^ 50 -> 0 <= tol -> norm s <> 0 -> resolved a w lam tol -> sstat lam a w u s ->
  sg_active_check u a w s lam tol fuel = Ok false.
Proof.
  intros a w u s lam tol fuel Hf La Ls Ha (Hl1 & Hl2) Ht Hs (Hw & R1 & R2 & R3 & R4) St. assert (P49 : 0 < (1 / 2) ^ 49) by (apply pow_lt; lra). assert (Hl : 0 < lam) by lra. destruct (stat_facts a w u s lam La Ls Ha Hw Hl Hs St) as (B & E1 & E2 & E3).
  set (th := resolution w) in *. unfold resolution in th. set (k := / 10 ^ 5 / w) in *. assert (Hk : 0 < k) by (unfold k; apply Rmult_lt_0_compat; [lra|apply Rinv_0_lt_compat; auto]).
  destruct (one_exists a (w + / 10 ^ 5) u La Ha ltac:(lra)) as (D & HD). assert (Nsp : 0 < norm s) by (assert (N := norm_nonneg s); lra).
  assert (Pw : w * norm s <= group_pen a w s). { unfold group_pen. assert (Q := one_nonneg a 0 (length u) s (one_value a 0 s) Ha ltac:(lra) Ls (one_group_value _ _ _)). unfold one_value in Q. lra. }
  assert (Pp : 0 < group_pen a w s) by (assert (0 < w * norm s) by (apply Rmult_lt_0_compat; auto); lra).
  assert (D1 : D <= lam). { apply HD; [lra|]. intros z q Lz Ez. rewrite one_group_value in Ez. injection Ez as <-. specialize (B z _ Lz (one_group_value _ _ _)). apply Rle_trans with (1 := B). apply Rmult_le_compat_l; [lra|]. unfold one_value. assert (N := norm_nonneg z). nra. }
  assert (D2 : lam <= D * (1 + k)). { assert (Q := proj1 (proj2 HD) s _ Ls (one_group_value _ _ _)). rewrite E1 in Q. change (one_value a (w + / 10 ^ 5) s) with (group_pen a (w + / 10 ^ 5) s) in Q. assert (D0 : 0 <= D) by apply HD.
    assert (Q2 : group_pen a (w + / 10 ^ 5) s <= group_pen a w s * (1 + k)). { replace (group_pen a (w + / 10 ^ 5) s) with (group_pen a w s + k * (w * norm s)) by (unfold group_pen, k; field; lra). assert (k * (w * norm s) <= k * group_pen a w s) by (apply Rmult_le_compat_l; lra). lra. }
    assert (D * group_pen a (w + / 10 ^ 5) s <= D * (group_pen a w s * (1 + k))) by (apply Rmult_le_compat_l; auto). apply Rmult_le_reg_r with (group_pen a w s); auto. lra. }
  assert (D3 : (1 / 2) ^ 50 < D). { replace ((1 / 2) ^ 50) with (1 / 2 * (1 / 2) ^ 49) by (simpl; ring). apply Rmult_lt_reg_r with (1 + k); [lra|]. apply Rlt_le_trans with lam; auto. apply Rlt_le_trans with ((1 / 2) ^ 49); auto. assert (1 / 2 * (1 / 2) ^ 49 * (1 + k) < 1 / 2 * (1 / 2) ^ 49 * 2) by (apply Rmult_lt_compat_l; [lra|unfold th in R2; lra]). lra. }
  destruct (strong_accurate u a w D fuel La Ha ltac:(lra) Hf HD) as (e & o & G & He). unfold sg_active_check. rewrite G. cbn [rbind]. destruct e as [m|]; [|lra]. destruct He as [(_ & He & _)|(_ & Hm & l1 & l2 & Eo & _)]; [lra|]. subst o.
  assert (Hm' : lam * (1 - th) <= m <= lam * (1 + 2 / 10 ^ 6)). { assert (Q : - (/ 10 ^ 6 * (1 + / 10 ^ 6) * D) <= m - D <= / 10 ^ 6 * (1 + / 10 ^ 6) * D) by (revert Hm; unfold Rabs; destruct (Rcase_abs (m - D)); lra).
    split; [|nra]. assert (D4 : lam * (1 - k) <= D). { assert (lam * (1 - k) <= D * (1 + k) * (1 - k)) by (apply Rmult_le_compat_r; [unfold th in R2; lra|auto]). assert (0 <= D) by apply HD. assert (0 <= D * (k * k)) by (apply Rmult_le_pos; [auto|apply Rmult_le_pos; lra]). lra. }
    assert (D * (1 - 2 / 10 ^ 6) <= m) by nra. assert (lam * (1 - k) * (1 - 2 / 10 ^ 6) <= D * (1 - 2 / 10 ^ 6)) by (apply Rmult_le_compat_r; lra). assert (0 <= lam * (k * (2 / 10 ^ 6))) by (apply Rmult_le_pos; [lra|apply Rmult_le_pos; lra]). unfold th. lra. }
  assert (Dm : Rabs (m - lam) <= lam * th). { apply Rabs_le. assert (lam * (2 / 10 ^ 6) <= lam * th) by (apply Rmult_le_compat_l; unfold th; lra). lra. }
  destruct (search_bracket u a w fuel _ Hf La G m (l1, l2) eq_refl) as (lo & hi & Hlo & Hml & B1 & B2 & Hhi & Hlo2 & Eo). clear G. injection Eo as -> ->.
  assert (A0 := norm_nonneg a). assert (S1 := signed_step a u lam m La Ha). assert (S2 : norm (vsub (soft_signed a lam u) (soft_signed a m u)) <= lam * th * norm a) by (eapply Rle_trans; [exact S1|apply Rmult_le_compat_r; auto]). clear S1.
  assert (Lm := soft_signed_length a m u La). assert (Ll := soft_signed_length a lam u La).
  assert (W : gtb (lam * (1 - tol)) m = false). { apply gtb_false. assert (lam * (1 - tol) <= lam * (1 - th)) by (apply Rmult_le_compat_l; unfold th in *; lra). lra. } rewrite W.
  assert (Sg : gtb (norm (map snd (filter (fun p => negb (is0 (fst p))) (combine s (vzip Rminus (vsub u (soft_signed a m u)) (vzip (fun x b => x * np_sign b * lam) a s)))))) (tol * Rmax 1 (norm s)) = false).
  { apply gtb_false. rewrite off_norm by auto. apply Rle_trans with tol. { apply Rle_trans with (lam * th * norm a); [|unfold th in *; lra]. apply Rle_trans with (2 := S2). unfold norm. apply sqrt_le_1_alt. apply off_stat; auto; lra. }
    assert (Q := Rmax_l 1 (norm s)). assert (tol * 1 <= tol * Rmax 1 (norm s)) by (apply Rmult_le_compat_l; auto). lra. } rewrite Sg. cbn [orb].
  destruct (Req_EM_T (norm (soft_signed a m u)) 0) as [|Nx]; [auto|]. set (x := soft_signed a m u) in *. f_equal. assert (m0 : 0 < m) by lra. assert (Wm : 0 < w * m) by (apply Rmult_lt_0_compat; auto).
  assert (Em : map (fun b => b / norm x * w * m) x = vscal (w * m) (vscal (/ norm x) x)). { unfold vscal. rewrite map_map. apply map_ext. intros. field. auto. } rewrite Em, (norm_scal (w * m)), unit_norm, Rmult_1_r, Rabs_right by (auto; lra).
  replace (is0 (w * m)) with false by (symmetry; apply is0_false; lra). replace (is0 (norm s)) with false by (symmetry; apply is0_false; auto). apply gtb_false.
  assert (Ey : norm (soft_signed a lam u) = lam * w). { rewrite E2, norm_scal, Rabs_right; [field; auto|]. apply Rle_ge. apply Rmult_le_pos; [apply Rmult_le_pos; lra|left; apply Rinv_0_lt_compat; auto]. } assert (Lw : 0 < lam * w) by (apply Rmult_lt_0_compat; auto).
  replace (vsub (map (fun a0 => a0 / (w * m)) (vscal (w * m) (vscal (/ norm x) x))) (map (fun a0 => a0 / norm s) s)) with (vsub (vscal (/ norm x) x) (vscal (/ norm (soft_signed a lam u)) (soft_signed a lam u))).
  - eapply Rle_trans; [apply directions; try congruence; rewrite Ey; lra|]. rewrite Ey. apply Rmult_le_reg_r with (lam * w); auto. unfold Rdiv. rewrite Rmult_assoc, Rinv_l, Rmult_1_r by lra.
    replace (norm (vsub x (soft_signed a lam u))) with (norm (vsub (soft_signed a lam u) x)) by (unfold norm; f_equal; apply sqn_vsub_sym; congruence). assert (lam * (2 * th * norm a) <= lam * (tol * w)) by (apply Rmult_le_compat_l; unfold th in *; lra). lra.
  - f_equal.
    + symmetry. unfold vscal at 1. rewrite map_map. transitivity (map (fun b : R => b) (vscal (/ norm x) x)); [apply map_ext; intros; field; lra|apply map_id].
    + rewrite Ey, E2. rewrite scaled_div. unfold vscal. rewrite map_map. apply map_ext. intros. field. lra.
Qed.
Lemma group_pen_segment : forall a w s d t, Forall (fun r => 0 <= r) a -> 0 <= w -> length d = length s -> 0 <= t <= 1 -> group_pen a w (vadd s (vscal t d)) <= (1 - t) * group_pen a w s + t * group_pen a w (vadd s d).
Proof.
  intros a w s d t Ha Hw L Ht. unfold group_pen. assert (N := norm_segment s d t L Ht). apply (Rmult_le_compat_l w) in N; auto.
  assert (vsum (vmul a (map Rabs (vadd s (vscal t d)))) <= (1 - t) * vsum (vmul a (map Rabs s)) + t * vsum (vmul a (map Rabs (vadd s d)))); [|lra]. clear N. revert s d L. induction a as [|c a IH]; intros [|x s] [|y d] L; try discriminate; try (unfold vsum; simpl; lra).
  unfold vmul, vadd, vscal in *. cbn [map vzip]. rewrite !vsum_cons. specialize (IH (Forall_inv_tail Ha) s d ltac:(simpl in L; congruence)). assert (Hc := Forall_inv Ha). cbn beta in Hc.
  assert (Rabs (x + t * y) <= (1 - t) * Rabs x + t * Rabs (x + y)). { replace (x + t * y) with ((1 - t) * x + t * (x + y)) by ring. eapply Rle_trans; [apply Rabs_triang|]. rewrite !Rabs_mult, (Rabs_right (1 - t)), (Rabs_right t) by lra. lra. }
  assert (c * Rabs (x + t * y) <= c * ((1 - t) * Rabs x + t * Rabs (x + y))) by (apply Rmult_le_compat_l; auto). lra.
Qed.
Lemma sparse_segment : forall labels lw w s d t, Forall (fun r => 0 <= r) lw -> length s = length labels -> length d = length labels -> (forall g, In g labels -> 0 <= w g) -> 0 <= t <= 1 -> sparse_penalty labels lw w (vadd s (vscal t d)) <= (1 - t) * sparse_penalty labels lw w s + t * sparse_penalty labels lw w (vadd s d).
Proof.
  intros labels lw w s d t Hl Ls Ld Hw Ht. unfold sparse_penalty. rewrite <- !vsum_map_scal, <- vsum_map_add. apply vsum_map_le. intros g Hg. apply -> (nodup_In Z.eq_dec) in Hg. assert (Ldt : length (vscal t d) = length labels) by (unfold vscal; rewrite map_length; auto). rewrite !vadd_block, scal_block by auto.
  apply (group_pen_segment (block labels g lw) (w g)); auto; [apply block_forall; auto|apply block_length; congruence].
Qed.
(** first order condition of a group for which every change within the group is allowed *)
Lemma sparse_first : forall labels f lw w grad s lam g, is_gradient (length labels) f s grad -> length s = length labels -> 0 <= lam -> Forall (fun r => 0 <= r) lw -> (forall h, In h labels -> 0 <= w h) -> In g labels ->
  (forall d, length d = length labels -> (forall h, h <> g -> block labels h d = zeros (length (block labels h d))) -> f s + lam * sparse_penalty labels lw w s <= f (vadd s d) + lam * sparse_penalty labels lw w (vadd s d)) ->
  sstat lam (block labels g lw) (w g) (vopp (block labels g grad)) (block labels g s).
Proof.
  intros labels f lw w grad s lam g G Ls Hl Hlw Hw Hg M y Ly. assert (Lg : length grad = length labels) by apply G. assert (Lgg : length (block labels g s) = length (block labels g grad)) by (apply block_length; congruence). assert (Ly' : length y = length (block labels g s)) by (rewrite Ly; unfold vopp; rewrite map_length; auto). set (d := vsub y (block labels g s)). assert (Ld : length d = length (block labels g s)) by (unfold d; vlen).
  set (D := unblock labels g d). assert (Lz : length (zeros (length labels)) = length labels) by apply repeat_length. assert (LD : length D = length labels) by apply unblock_length.
  assert (BD : block labels g D = d) by (apply block_unblock; rewrite Ld; apply block_length; congruence). assert (BO : forall h, h <> g -> block labels h D = zeros (length (block labels h D))). { intros h N. unfold D. rewrite block_unblock_other by auto. rewrite zeros_length. reflexivity. }
  assert (BA : forall h, h <> g -> block labels h (vadd s D) = block labels h s). { intros h N. rewrite vadd_block by auto. rewrite BO by auto. apply vadd_zeros_r. apply block_length; congruence. }
  assert (F := P_problem.first_order (length labels) f (fun v => lam * sparse_penalty labels lw w v) s grad D G LD).
  assert (K : 0 <= dot grad D + lam * sparse_penalty labels lw w (vadd s D) - lam * sparse_penalty labels lw w s).
  { apply F; auto.
    - intros t Ht. assert (K := sparse_segment labels lw w s D t Hlw Ls LD Hw Ht). apply (Rmult_le_compat_l lam) in K; auto. lra.
    - intros t Ht. apply (M (vscal t D)); [unfold vscal; rewrite map_length; auto|]. intros h N. rewrite scal_block, BO by auto. unfold vscal, zeros. rewrite map_length, repeat_length. clear. induction (length (block labels h D)) as [|k IH]; auto. cbn [repeat map]. rewrite IH. f_equal. ring. }
  unfold sparse_penalty in K. rewrite (one_changes (fun h => vsum (vmul (block labels h lw) (map Rabs (block labels h (vadd s D)))) + w h * norm (block labels h (vadd s D))) (fun h => vsum (vmul (block labels h lw) (map Rabs (block labels h s))) + w h * norm (block labels h s)) labels g Hg) in K by (intros h N; rewrite BA by auto; reflexivity).
  rewrite (dot_blocks labels) in K by auto. rewrite (one_changes (fun h => dot (block labels h grad) (block labels h D)) (fun _ => 0) labels g Hg) in K by (intros h N; rewrite BO by auto; apply dot_zeros_r).
  replace (vsum (map (fun _ : Z => 0) (distinct labels))) with 0 in K by (clear; induction (distinct labels) as [|x l IH]; [reflexivity|]; cbn [map]; rewrite vsum_cons, <- IH; ring). rewrite vadd_block, BD in K by auto. replace (vadd (block labels g s) d) with y in K by (unfold d; symmetry; apply vadd_vsub; auto). rewrite dot_opp_l. unfold group_pen. lra.
Qed.
Lemma stat_ball : forall a w u s lam, length s = length u -> length a = length u -> Forall (fun r => 0 <= r) a -> 0 <= w -> 0 <= lam -> sstat lam a w u s -> dual_ball (length u) (one_group a w) lam u.
Proof.
  intros a w u s lam Ls La Ha Hw Hl St z q Lz Ez. rewrite one_group_value in Ez. injection Ez as <-. rewrite <- group_pen_value. assert (K := St (vadd s z) ltac:(vlen)). assert (P := group_pen_sub a w (vadd s z) s).
  replace (vsub (vadd s z) s) with z in * by (assert (Lsz : length s = length z) by congruence; clear -Lsz; revert z Lsz; induction s as [|x s IH]; intros [|y z] L; try discriminate; auto; unfold vsub, vadd in *; cbn [vzip]; rewrite <- IH by (simpl in L; congruence); f_equal; ring).
  assert (T : group_pen a w (vadd s z) <= group_pen a w s + group_pen a w z). { assert (L2 : length z = length s) by congruence. unfold group_pen. assert (N := norm_triangle s z ltac:(congruence)). apply (Rmult_le_compat_l w) in N; auto.
    assert (vsum (vmul a (map Rabs (vadd s z))) <= vsum (vmul a (map Rabs s)) + vsum (vmul a (map Rabs z))); [|lra]. clear -Ha L2. revert s z L2. induction a as [|c a IH]; intros [|x s] [|y z] L; try discriminate; try (unfold vsum; simpl; lra).
    unfold vmul, vadd in *. cbn [map vzip]. rewrite !vsum_cons. specialize (IH (Forall_inv_tail Ha) s z ltac:(simpl in L; congruence)). assert (Hc := Forall_inv Ha). cbn beta in Hc. assert (c * Rabs (x + y) <= c * (Rabs x + Rabs y)) by (apply Rmult_le_compat_l; [auto|apply Rabs_triang]). lra. }
  assert (lam * (group_pen a w (vadd s z) - group_pen a w s) <= lam * group_pen a w z) by (apply Rmult_le_compat_l; lra). lra.
Qed.
Lemma inactive_complete : forall a w u lam fuel, (20 < fuel)%nat -> length a = length u -> Forall (fun r => 0 <= r) a -> 0 <= w -> 0 < lam <= 2 ^ 50 -> dual_ball (length u) (one_group a w) lam u ->
  exists m o, gauge_function_dual_strong u a w fuel = Ok (Fin m, o) /\ m / lam <= 1 + 2 / 10 ^ 6.
Proof.
  intros a w u lam fuel Hf La Ha Hw Hl B. destruct (one_exists a (w + / 10 ^ 5) u La Ha ltac:(lra)) as (D & HD).
  assert (D1 : D <= lam). { apply HD; [lra|]. intros z q Lz Ez. rewrite one_group_value in Ez. injection Ez as <-. specialize (B z _ Lz (one_group_value _ _ _)). apply Rle_trans with (1 := B). apply Rmult_le_compat_l; [lra|]. unfold one_value. assert (N := norm_nonneg z). nra. }
  destruct (strong_accurate u a w D fuel La Ha Hw Hf HD) as (e & o & G & He). destruct e as [m|]; [|lra]. exists m, o. split; auto. assert (D0 : 0 <= D) by apply HD. apply Rmult_le_reg_r with lam; [lra|]. unfold Rdiv at 1. rewrite Rmult_assoc, Rinv_l, Rmult_1_r by lra.
  destruct He as [(-> & _)|(_ & Hm & _)]; [nra|]. assert (Q := Rle_abs (m - D)). nra.
Qed.
Theorem sg_complete : forall labels lw given grad s lam tol fuel f, let w := group_weight given labels in length lw = length labels -> length s = length labels -> (20 < fuel)%nat -> Forall (fun a => 0 <= a) lw ->
  (forall h, In h labels -> resolved (block labels h lw) (w h) lam tol) -> (1 / 2) ^ 49 <= lam <= 2 ^ 50 -> 2 / 10 ^ 6 <= tol < 2 -> is_gradient (length labels) f s grad ->
  (forall v, length v = length labels -> f s + lam * sparse_penalty labels lw w s <= f v + lam * sparse_penalty labels lw w v) ->
  exists r, sg_check labels lw given grad s lam tol fuel = Ok r /\ passes r.
Proof.
  intros labels lw given grad s lam tol fuel f w Ll Ls Hf Hlw Hr Hlam Ht G M. assert (Lg : length grad = length labels) by apply G. assert (P49 : 0 < (1 / 2) ^ 49) by (apply pow_lt; lra).
  assert (Each : forall g, In g (g_ids labels) -> exists q, sg_one labels lw given grad s lam tol fuel g = Ok q /\ fst q = false /\ exists a, snd q = Fin a /\ a <= 1 + tol).
  { intros g Hg. apply -> sorted_unique_in in Hg. assert (W0 : 0 < w g) by apply (Hr g Hg). assert (St := sparse_first labels f lw w grad s lam g G Ls ltac:(lra) Hlw ltac:(intros h Hh; destruct (Hr h Hh); lra) Hg ltac:(intros d Ld _; apply M; unfold vadd; rewrite vzip_length; congruence)).
    unfold sg_one. rewrite !zpick_block. change (weight_of given labels g) with (w g). assert (Hb : Forall (fun a => 0 <= a) (block labels g lw)) by (apply block_forall; auto). rewrite group_pen_abs by auto.
    assert (Lb : forall x, length x = length labels -> length (block labels g x) = length (vopp (block labels g grad))) by (intros x Lx; unfold vopp; rewrite map_length; apply block_length; congruence).
    assert (N := norm_nonneg s). destruct (Rlt_dec (/ 10 ^ 6 * norm s) (group_pen (block labels g lw) (w g) (block labels g s))) as [A|A].
    - replace (gtb _ _) with true by (symmetry; apply gtb_true; auto). rewrite active_complete; auto; [|lra|].
      + eexists. split; [reflexivity|]. cbn [fst snd]. split; auto. exists 0. split; [auto|lra].
      + intros Z. unfold norm in Z. apply sqrt_eq_0 in Z; [|apply sqn_nonneg]. apply sqn_eq_zero in Z. rewrite Z in A. unfold group_pen in A. rewrite norm_zeros, Rmult_0_r in A.
        replace (vsum (vmul (block labels g lw) (map Rabs (zeros (length (block labels g s)))))) with 0 in A; [lra|]. change (map Rabs (zeros (length (block labels g s)))) with (vabs (zeros (length (block labels g s)))). rewrite vabs_zeros, vmul_zeros_r, vsum_zeros'. auto.
    - replace (gtb (group_pen _ _ _) _) with false by (symmetry; apply gtb_false; lra). assert (0 <= vsum (block labels g lw)) by (clear -Hb; induction Hb as [|x l Hx Hl IH]; [unfold vsum; simpl; lra|rewrite vsum_cons; lra]). replace (gtb _ 0) with true by (symmetry; apply gtb_true; lra).
      destruct (inactive_complete (block labels g lw) (w g) (vopp (block labels g grad)) lam fuel) as (m & o & E & Hm); auto; [lra|lra|apply (stat_ball _ _ _ (block labels g s)); auto; lra|]. rewrite E. cbn [rmap fst]. eexists. split; [reflexivity|]. cbn [fst snd]. split; auto. eexists. split; [reflexivity|]. lra. }
  destruct (rall_ok (sg_one labels lw given grad s lam tol fuel) (g_ids labels)) as (rs & ER); [intros g Hg; destruct (Each g Hg) as (q & E & _); eauto|].
  destruct (sg_passes_iff _ _ _ _ _ _ _ _ _ (proj2 Ht) ER) as (r & Er & Hq). exists r. split; auto. apply (proj2 Hq). intros q Iq. apply rall_spec in ER. destruct (forall2_right _ _ _ ER q Iq) as (g & Hg & E). destruct (Each g Hg) as (q' & E' & K). rewrite E in E'. apply Ok_inj in E'. subst q'. auto.
Qed.
