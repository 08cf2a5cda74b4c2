(** What the optimality check of sparse group lasso paths guarantees off zero: one group. *)
From Coq Require Import Reals List Lra Lia Psatz Bool ZArith.
From Verif Require Import Vec Spec M_quad M_prox M_semi SpecPart SpecGroup M_mixed M_weighted M_group SpecSgl M_sgl P_quad P_prox P_calc P_part P_weighted P_gauge P_group P_group2 P_sgl P_search P_sgl2 P_sgl3 P_sgl5
  M_loss SpecLoss SpecSmooth M_path SpecPath M_gpath SpecGpath SpecSgpath P_path P_gpath P_gpath3 P_sgpath P_sgpath2.
Import ListNotations.
Local Open Scope R_scope.

Lemma group_pen_value : forall a w x, group_pen a w x = one_value a w x. Proof. reflexivity. Qed.
(** the soft thresholding is Lipschitz in the threshold *)
Lemma soft_step_sq : forall a u b b', b <= b' -> length a = length u -> Forall (fun r => 0 <= r) a ->
  sqn (vsub (soft_pos a b u) (soft_pos a b' u)) <= sqn (vscal (b' - b) a).
Proof.
  induction a as [|c a IH]; intros [|e u] b b' Hb La Ha; try discriminate; [unfold sqn, dot, vsum; simpl; lra|].
  unfold soft_pos, vsub, vscal in *. cbn [map vzip]. rewrite !sqn_cons. specialize (IH u b b' Hb ltac:(simpl in La; congruence) (Forall_inv_tail Ha)).
  pose proof (Forall_inv Ha) as Hc. cbn beta in Hc. enough (0 <= Rmax (Rabs e - b * c) 0 - Rmax (Rabs e - b' * c) 0 <= (b' - b) * c) by nra.
  assert (0 <= (b' - b) * c) by nra. unfold Rmax. destruct (Rle_dec _ _), (Rle_dec _ _); nra.
Qed.
Lemma soft_step : forall a u b b', b <= b' -> length a = length u -> Forall (fun r => 0 <= r) a ->
  norm (soft_pos a b u) <= norm (soft_pos a b' u) + (b' - b) * norm a.
Proof.
  intros a u b b' Hb La Ha. assert (E : norm (vsub (soft_pos a b u) (soft_pos a b' u)) <= (b' - b) * norm a).
  { rewrite <- (Rabs_right (b' - b)) by lra. rewrite <- norm_scal. unfold norm. apply sqrt_le_1_alt. apply soft_step_sq; auto. }
  assert (L1 := soft_pos_length a b u La). assert (L2 := soft_pos_length a b' u La).
  replace (soft_pos a b u) with (vadd (soft_pos a b' u) (vsub (soft_pos a b u) (soft_pos a b' u))) by (apply vadd_vsub; congruence).
  eapply Rle_trans; [apply norm_triangle; vlen|]. lra.
Qed.
(** the search: the value, with a bracket around it *)
Lemma search_bracket : forall u a w fuel r, (20 < fuel)%nat -> length a = length u -> gauge_function_dual_strong u a w fuel = Ok r -> forall m o, r = (Fin m, Some o) ->
  exists lo hi, 0 < lo /\ lo <= m <= hi /\ norm (soft_pos a hi u) <= hi * (w + / 10 ^ 5) /\ lo * (w + / 10 ^ 5) < norm (soft_pos a lo u) /\ hi <= m * (1 + 2 / 10 ^ 6) /\ m * (1 - 2 / 10 ^ 6) <= lo /\
  o = (vsub u (soft_signed a m u), if Req_EM_T (norm (soft_signed a m u)) 0 then None else Some (map (fun b => b / norm (soft_signed a m u) * w * m) (soft_signed a m u))).
Proof.
  intros u a w fuel r Hf La E m o Er. unfold gauge_function_dual_strong in E.
  destruct (search_ok (fun t => Ok (inside_set_strong u t a w)) (fun t => inside_set_strong u t a w) (/ 10 ^ 6)) with (k := 50%nat) (n := 20%nat) (fuel := fuel) as (e & E1 & He); auto; try lia; try lra.
  rewrite E1 in E. cbn [rmap] in E. apply Ok_inj in E. subst r. destruct e as [m'|]; [|discriminate]. destruct (Req_EM_T m' 0) as [Z|Z]; [discriminate|]. injection Er as -> Eo. 
  destruct He as [[? _]|(lo & hi & (B1 & B2 & B3 & B4 & B5) & _)]; [contradiction|]. exists lo, hi. split; [lra|]. split; [lra|].
  unfold inside_set_strong in B2, B3. destruct (Rle_dec (norm (soft_pos a lo u)) _) as [|N2]; [discriminate|]. destruct (Rle_dec (norm (soft_pos a hi u)) _) as [N3|]; [|discriminate].
  split; [exact N3|]. split; [lra|]. split; [lra|]. split; [lra|]. symmetry. exact Eo.
Qed.
(** the part of the first subgradient that is wrong where s is not zero *)
Fixpoint off (a u s : vec) (m lam : R) : vec :=
  match a, u, s with
  | c :: a', e :: u', b :: s' => (if Req_EM_T b 0 then 0 else e - Rmax (Rabs e - m * c) 0 * sgn e - c * np_sign b * lam) :: off a' u' s' m lam
  | _, _, _ => []
  end.
Lemma off_length : forall a u s m lam, length a = length u -> length s = length u -> length (off a u s m lam) = length u.
Proof. induction a as [|c a IH]; intros [|e u] [|b s] m lam La Ls; try discriminate; auto. cbn [off length]. rewrite IH; simpl in *; congruence. Qed.
Lemma off_norm : forall a u s m lam, length a = length u -> length s = length u ->
  norm (map snd (filter (fun p => negb (is0 (fst p))) (combine s (vzip Rminus (vsub u (soft_signed a m u)) (vzip (fun x b => x * np_sign b * lam) a s))))) = norm (off a u s m lam).
Proof.
  intros a u s m lam La Ls. unfold norm. f_equal. revert u s La Ls. induction a as [|c a IH]; intros [|e u] [|b s] La Ls; try discriminate; auto.
  unfold soft_signed, soft_pos, vsub, vmul in *. cbn [map vzip combine filter fst snd off]. specialize (IH u s ltac:(simpl in La; congruence) ltac:(simpl in Ls; congruence)).
  destruct (Req_EM_T b 0) as [Z|Z].
  - replace (is0 b) with true by (symmetry; apply is0_true; auto). cbn [negb]. rewrite IH, sqn_cons. ring.
  - replace (is0 b) with false by (symmetry; apply is0_false; auto). cbn [negb map snd]. rewrite !sqn_cons. rewrite IH. reflexivity.
Qed.
Lemma sign_abs : forall b, b <> 0 -> np_sign b * b = Rabs b.
Proof. intros b Hb. unfold np_sign. destruct (Rlt_dec b 0); [rewrite Rabs_left; lra|]. destruct (Rlt_dec 0 b); [rewrite Rabs_right; lra|lra]. Qed.
Lemma sign_le : forall b y, b <> 0 -> np_sign b * y <= Rabs y.
Proof. intros b y Hb. unfold np_sign. assert (A := Rle_abs y). assert (B := Rle_abs (- y)). rewrite Rabs_Ropp in B. destruct (Rlt_dec b 0); [lra|]. destruct (Rlt_dec 0 b); lra. Qed.
Lemma first_part : forall a u s y m lam k, length a = length u -> length s = length u -> length y = length u -> Forall (fun r => 0 <= r) a -> 0 <= m -> 0 <= lam -> 0 <= k -> m - lam <= k ->
  dot (vsub u (soft_signed a m u)) (vsub y s) <= lam * (vsum (vmul a (map Rabs y)) - vsum (vmul a (map Rabs s))) + dot (off a u s m lam) (vsub y s) + k * dot a (map Rabs (vsub y s)).
Proof.
  induction a as [|c a IH]; intros [|e u] [|b s] [|z y] m lam k La Ls Ly Ha Hm Hl Hk Hmk; try discriminate; [unfold dot, vsum; simpl; unfold vsum; simpl; lra|].
  specialize (IH u s y m lam k ltac:(simpl in La; congruence) ltac:(simpl in Ls; congruence) ltac:(simpl in Ly; congruence) (Forall_inv_tail Ha) Hm Hl Hk Hmk).
  pose proof (Forall_inv Ha) as Hc. cbn beta in Hc. unfold soft_signed, soft_pos, vsub, vmul in *. cbn [map vzip off]. rewrite !dot_cons, !vsum_cons.
  assert (Hmc : 0 <= m * c) by nra. assert (S1 := soft_resid (m * c) e Hmc). unfold soft in S1. rewrite Rmult_comm in S1. 
  set (q := Rmax (Rabs e - m * c) 0 * sgn e) in *. destruct (Req_EM_T b 0) as [Z|Z].
  - subst b. rewrite Rminus_0_r, Rabs_R0. assert (A := Rle_abs ((e - q) * z)). rewrite Rabs_mult in A. assert (B := Rabs_pos z). assert (Rabs (e - q) * Rabs z <= m * c * Rabs z) by (apply Rmult_le_compat_r; auto).
    assert (m * c * Rabs z <= (lam + k) * c * Rabs z) by (apply Rmult_le_compat_r; [auto|apply Rmult_le_compat_r; lra]). lra.
  - assert (A1 := sign_abs b Z). assert (A2 := sign_le b z Z). assert (0 <= k * (c * Rabs (z - b))) by (apply Rmult_le_pos; [auto|apply Rmult_le_pos; [auto|apply Rabs_pos]]).
    assert (c * lam * (np_sign b * z) <= c * lam * Rabs z) by (apply Rmult_le_compat_l; [apply Rmult_le_pos; auto|auto]). 
    assert (c * np_sign b * lam * (z - b) <= lam * (c * Rabs z - c * Rabs b)). { replace (c * np_sign b * lam * (z - b)) with (c * lam * (np_sign b * z) - c * lam * (np_sign b * b)) by ring. rewrite A1. lra. } lra.
Qed.
(** where the second subgradient points in the direction of s, the first one shows the value of the search *)
Lemma off_shows : forall a u s m lam, length a = length u -> length s = length u -> Forall (fun r => 0 <= r) a -> 0 <= m -> 0 < dot (soft_signed a m u) s ->
  exists c, In c a /\ (c * (m - lam)) * (c * (m - lam)) <= sqn (off a u s m lam).
Proof.
  induction a as [|c a IH]; intros [|e u] [|b s] m lam La Ls Ha Hm D; try discriminate; [unfold soft_signed, soft_pos, vmul, dot, vsum in D; simpl in D; unfold vsum in D; simpl in D; lra|].
  specialize (IH u s m lam ltac:(simpl in La; congruence) ltac:(simpl in Ls; congruence) (Forall_inv_tail Ha) Hm). pose proof (Forall_inv Ha) as Hc. cbn beta in Hc.
  unfold soft_signed, soft_pos, vmul in D. cbn [map vzip] in D. rewrite dot_cons in D. cbn [off]. rewrite sqn_cons. 
  assert (N1 := sqn_nonneg (off a u s m lam)). set (q := Rmax (Rabs e - m * c) 0 * sgn e) in *. destruct (Rlt_dec 0 (q * b)) as [P|P].
  - exists c. split; [left; auto|]. destruct (Req_EM_T b 0) as [Z|Z]; [subst b; lra|]. enough (e - q - c * np_sign b * lam = c * (m - lam) \/ e - q - c * np_sign b * lam = - (c * (m - lam))) by nra.
    assert (Hmc : 0 <= m * c) by nra. revert P. unfold q, Rmax. destruct (Rle_dec (Rabs e - m * c) 0) as [Q|Q]; [lra|]. unfold sgn, np_sign. intros P.
    destruct (Rlt_dec 0 e) as [E|E].
    + rewrite Rabs_right in * by lra. assert (0 < b) by nra. destruct (Rlt_dec b 0); [lra|]. destruct (Rlt_dec 0 b); [|lra]. left. lra.
    + destruct (Rlt_dec e 0) as [E'|E']; [|rewrite Rmult_0_r, Rmult_0_l in P; lra]. rewrite Rabs_left in * by lra. assert (b < 0) by nra. destruct (Rlt_dec b 0); [|lra]. right. lra.
  - destruct IH as (c' & Hin & H).
    + unfold soft_signed, soft_pos, vmul. lra.
    + exists c'. split; [right; auto|]. match goal with |- context [(if ?d then _ else _) * _] => set (X := (if d then 0 else e - q - c * np_sign b * lam)) end. assert (0 <= X * X) by apply Rle_0_sqr. unfold X in *. lra.
Qed.
Lemma abs_norm : forall v : vec, norm (map Rabs v) = norm v.
Proof. intros v. unfold norm. f_equal. induction v as [|a v IH]; auto. cbn [map]. rewrite !sqn_cons, IH. unfold Rabs. destruct (Rcase_abs a); ring. Qed.
Lemma unit_dot : forall x y, length x = length y -> norm x = 1 -> norm y = 1 -> sqn (vsub x y) = 2 - 2 * dot x y.
Proof. intros x y L Nx Ny. rewrite sqn_sub by auto. rewrite <- !norm_sq, Nx, Ny. ring. Qed.
Lemma scaled_div : forall (x : vec) t, map (fun a => a / t) x = vscal (/ t) x.
Proof. intros. unfold vscal. apply map_ext. intros. unfold Rdiv. ring. Qed.
Lemma unit_norm : forall x, norm x <> 0 -> norm (vscal (/ norm x) x) = 1.
Proof. intros x Hx. assert (N := norm_nonneg x). rewrite norm_scal, Rabs_right; [field; auto|]. apply Rle_ge. left. apply Rinv_0_lt_compat. lra. Qed.
Lemma dot_abs_le : forall x y, length x = length y -> Rabs (dot x y) <= norm x * norm y.
Proof.
  intros x y L. assert (A := cauchy_schwarz x y L). assert (B := cauchy_schwarz (vopp x) y ltac:(unfold vopp; rewrite map_length; auto)). rewrite dot_opp_l in B.
  replace (norm (vopp x)) with (norm x) in B; [apply Rabs_le; lra|]. replace (vopp x) with (vscal (-1) x) by (unfold vscal, vopp; apply map_ext; intros; ring). rewrite norm_scal. unfold Rabs. destruct (Rcase_abs (-1)); lra.
Qed.
Lemma scalar_part : forall ns w lam tol m c d A lo hi S1 S2, 0 < w -> 0 < lam -> 0 <= tol < 1 -> 0 < c -> 0 <= d -> 0 <= A -> 0 < lo -> lo <= m <= hi -> hi <= m * (1 + 2 / 10 ^ 6) -> m * (1 - 2 / 10 ^ 6) <= lo ->
  S2 <= hi * (w + / 10 ^ 5) -> lo * (w + / 10 ^ 5) < S1 -> ns <= S2 + (hi - m) * A -> S1 <= ns + (m - lo) * A -> lam * (1 - tol) <= m -> m <= lam + d / c ->
  Rabs (ns - lam * w) <= tol * lam * w + d / c * w + (lam + d / c) * (/ 10 ^ 5 + 2 / 10 ^ 6 * (w + / 10 ^ 5 + A)).
Proof.
  intros ns w lam tol m c d A lo hi S1 S2 Hw Hl Ht Hc Hd HA Hlo Hm Hhi Hlo2 B1 B2 B3 B4 Hm1 Hm2. set (k := / 10 ^ 5) in *. set (h := 2 / 10 ^ 6) in *. assert (Hk : 0 < k) by (unfold k; lra). assert (Hh : 0 < h) by (unfold h; lra). clearbody k h.
  set (M := lam + d / c) in *. assert (Ed : d / c = M - lam) by (unfold M; ring). rewrite Ed. clearbody M. 
  assert (m0 : 0 < m) by lra. assert (X : 0 <= h * (w + k + A)) by (apply Rmult_le_pos; lra).
  assert (U : ns <= m * (w + k + h * (w + k + A))). { assert (hi * (w + k) <= m * (1 + h) * (w + k)) by (apply Rmult_le_compat_r; lra). assert ((hi - m) * A <= m * h * A) by (apply Rmult_le_compat_r; lra). lra. }
  assert (V : m * (w + k - h * (w + k + A)) <= ns). { assert (m * (1 - h) * (w + k) <= lo * (w + k)) by (apply Rmult_le_compat_r; lra). assert ((m - lo) * A <= m * h * A) by (apply Rmult_le_compat_r; lra). lra. }
  assert (U2 : m * (w + k + h * (w + k + A)) <= M * (w + k + h * (w + k + A))) by (apply Rmult_le_compat_r; lra).
  assert (V2 : m * (h * (w + k + A)) <= M * (h * (w + k + A))) by (apply Rmult_le_compat_r; lra).
  assert (V3 : lam * (1 - tol) * w <= m * w) by (apply Rmult_le_compat_r; lra). assert (0 <= m * k) by (apply Rmult_le_pos; lra). assert (0 <= tol * lam * w) by (apply Rmult_le_pos; [apply Rmult_le_pos|]; lra).
  destruct (Rle_dec lam M) as [LM|LM].
  - assert (0 <= (M - lam) * w) by (apply Rmult_le_pos; lra). assert (0 <= M * k) by (apply Rmult_le_pos; lra). apply Rabs_le. lra.
  - exfalso. assert (0 <= d / c) by (apply Rmult_le_pos; [auto|left; apply Rinv_0_lt_compat; auto]). lra.
Qed.
Theorem active_sound : forall point lw w s lam tol fuel c y, (20 < fuel)%nat -> length lw = length point -> length s = length point -> length y = length point ->
  Forall (fun r => c <= r) lw -> 0 < c -> 0 < w -> norm lw <= 10 ^ 5 * w -> 0 < lam -> 0 <= tol < 1 -> norm s <> 0 -> sg_active_check point lw w s lam tol fuel = Ok false ->
  dot point (vsub y s) <= lam * (group_pen lw w y - group_pen lw w s) + active_error lw w c lam tol s * norm (vsub y s).
Proof.
  intros u a w s lam tol fuel c y Hf La Ls Ly Hac Hc Hw HA Hl Ht Hs E. assert (Ha : Forall (fun r => 0 <= r) a) by (apply Forall_impl with (2 := Hac); intros; lra).
  unfold sg_active_check in E. destruct (gauge_function_dual_strong u a w fuel) as [r|] eqn:G; [|discriminate]. cbn [rbind] in E. destruct r as ([m|] & [(l1, l2)|]); try discriminate.
  2: { exfalso. unfold gauge_function_dual_strong in G. destruct (search _ _ _ _) as [[q|]|]; try discriminate G. cbn [rmap] in G. destruct (Req_EM_T q 0); discriminate G. }
  destruct (search_bracket u a w fuel _ Hf La G m (l1, l2) eq_refl) as (lo & hi & Hlo & Hm & B1 & B2 & Hhi & Hlo2 & Eo). clear G. injection Eo as -> El2.
  apply Ok_inj in E. apply orb_false_iff in E. destruct E as (E & E3). apply orb_false_iff in E. destruct E as (E1 & E2). apply gtb_false in E1. apply gtb_false in E2.
  rewrite off_norm in E2 by auto. set (f := off a u s m lam) in *. set (d := vsub y s). assert (Ld : length d = length u) by (unfold d; vlen). set (dl := tol * Rmax 1 (norm s)) in *.
  assert (m0 : 0 < m) by lra. destruct (soft_parts a m u La ltac:(lra) Ha) as (P1 & _ & _). assert (Lsf := soft_signed_length a m u La). set (x := soft_signed a m u) in *.
  assert (A0 := norm_nonneg a). assert (St1 := soft_step a u m hi ltac:(lra) La Ha). assert (St2 := soft_step a u lo m ltac:(lra) La Ha). rewrite <- P1 in St1, St2.
  assert (Nx : norm x <> 0). { intros Z. rewrite Z in St2. assert (m * (1 - 2 / 10 ^ 6) * (w + / 10 ^ 5) <= lo * (w + / 10 ^ 5)) by (apply Rmult_le_compat_r; lra). assert ((m - lo) * norm a <= m * (2 / 10 ^ 6) * norm a) by (apply Rmult_le_compat_r; lra).
    assert (m * (2 / 10 ^ 6) * norm a <= m * (2 / 10 ^ 6) * (10 ^ 5 * w)) by (apply Rmult_le_compat_l; [apply Rmult_le_pos; lra|auto]). assert (m * (w * (1 - 2 / 10 ^ 6 - 2 / 10)) <= 0) by lra. assert (0 < m * (w * (1 - 2 / 10 ^ 6 - 2 / 10))) by (apply Rmult_lt_0_compat; [auto|apply Rmult_lt_0_compat; lra]). lra. }
  destruct (Req_EM_T (norm x) 0) as [|_]; [contradiction|]. subst l2. assert (Nx0 := norm_nonneg x). assert (Ns0 := norm_nonneg s).
  set (X := vscal (/ norm x) x). set (T := vscal (/ norm s) s). assert (LX : length X = length u) by (unfold X, vscal; rewrite map_length; auto). assert (LT : length T = length u) by (unfold T, vscal; rewrite map_length; auto). assert (UX : norm X = 1) by (apply unit_norm; auto). assert (UT : norm T = 1) by (apply unit_norm; auto).
  assert (Em : map (fun b => b / norm x * w * m) x = vscal (w * m) X). { unfold X, vscal. rewrite map_map. apply map_ext. intros. field. auto. }
  assert (Par : norm (vsub X T) <= tol).
  { rewrite Em in E3. rewrite (norm_scal (w * m) X) in E3. rewrite UX, Rmult_1_r, Rabs_right in E3 by (apply Rle_ge; left; apply Rmult_lt_0_compat; auto). assert (Wm : 0 < w * m) by (apply Rmult_lt_0_compat; auto). replace (is0 (w * m)) with false in E3 by (symmetry; apply is0_false; lra). replace (is0 (norm s)) with false in E3 by (symmetry; apply is0_false; auto).
    apply gtb_false in E3. replace (vsub X T) with (vsub (map (fun a => a / (w * m)) (vscal (w * m) X)) (map (fun a => a / norm s) s)); auto. f_equal; [|apply scaled_div]. unfold vscal at 1. rewrite map_map. transitivity (map (fun b : R => b) X); [apply map_ext; intros; field; lra|apply map_id]. }
  assert (Dp : 0 < dot x s). { assert (Q := unit_dot X T ltac:(congruence) UX UT). assert (sqn (vsub X T) <= tol * tol). { rewrite <- norm_sq. assert (N := norm_nonneg (vsub X T)). apply Rmult_le_compat; auto. } assert (0 < dot X T) by nra. unfold X, T in H0. rewrite dot_scal_l, dot_scal_r in H0.
    assert (I1 : 0 < / norm x) by (apply Rinv_0_lt_compat; lra). assert (I2 : 0 < / norm s) by (apply Rinv_0_lt_compat; lra). apply Rnot_le_lt. intros C. assert (/ norm x * (/ norm s * dot x s) <= 0); [|lra]. assert (/ norm s * dot x s <= 0) by nra. nra. }
  destruct (off_shows a u s m lam La Ls Ha ltac:(lra) Dp) as (cj & Hin & Hcj). fold f in Hcj.
  assert (Lf : length f = length u) by (apply off_length; auto). assert (F0 := norm_nonneg f).
  assert (Dl0 : 0 <= dl) by lra. assert (Cj : c <= cj) by (apply (proj1 (Forall_forall _ _) Hac cj Hin)).
  assert (Hm2 : m <= lam + dl / c). { assert (K : Rabs (cj * (m - lam)) <= norm f). { apply Rsqr_incr_0; [|apply Rabs_pos|auto]. rewrite <- Rsqr_abs. unfold Rsqr. rewrite norm_sq. auto. }
    assert (cj * (m - lam) <= dl) by (assert (Q := Rle_abs (cj * (m - lam))); lra). destruct (Rle_dec m lam) as [|ML]; [assert (0 <= dl / c) by (apply Rmult_le_pos; [auto|left; apply Rinv_0_lt_compat; auto]); lra|].
    assert (c * (m - lam) <= cj * (m - lam)) by (apply Rmult_le_compat_r; lra). assert (m - lam <= dl / c); [|lra]. apply Rmult_le_reg_l with c; auto. replace (c * (dl / c)) with dl by (field; lra). lra. }
  assert (Dc : 0 <= dl / c) by (apply Rmult_le_pos; [auto|left; apply Rinv_0_lt_compat; auto]).
  assert (F1 := first_part a u s y m lam (dl / c) La Ls Ly Ha ltac:(lra) ltac:(lra) Dc ltac:(lra)). fold x d f in F1.
  assert (C1 : dot f d <= dl * norm d). { eapply Rle_trans; [apply cauchy_schwarz; congruence|]. apply Rmult_le_compat_r; [apply norm_nonneg|auto]. }
  assert (C2 : dl / c * dot a (map Rabs d) <= dl / c * (norm a * norm d)). { apply Rmult_le_compat_l; auto. rewrite <- (abs_norm d). apply cauchy_schwarz. rewrite map_length. congruence. }
  assert (Ex : x = vscal (norm x) X). { unfold X, vscal. rewrite map_map. transitivity (map (fun b : R => b) x); [symmetry; apply map_id|apply map_ext; intros; field; auto]. }
  assert (C3 : dot x d <= lam * w * (norm y - norm s) + (Rabs (norm x - lam * w) + tol * lam * w) * norm d).
  { assert (D1 : dot x d = lam * w * dot X d + (norm x - lam * w) * dot X d) by (rewrite Ex at 1; rewrite dot_scal_l; ring).
    assert (D2 : (norm x - lam * w) * dot X d <= Rabs (norm x - lam * w) * norm d). { eapply Rle_trans; [apply Rle_abs|]. rewrite Rabs_mult. apply Rmult_le_compat_l; [apply Rabs_pos|]. eapply Rle_trans; [apply dot_abs_le; congruence|]. rewrite UX. lra. }
    assert (D3 : dot X d <= norm y - norm s + tol * norm d). { replace (dot X d) with (dot T d + dot (vsub X T) d) by (rewrite dot_sub_l by congruence; ring). assert (dot (vsub X T) d <= tol * norm d). { eapply Rle_trans; [apply cauchy_schwarz; vlen|]. apply Rmult_le_compat_r; [apply norm_nonneg|auto]. }
      assert (dot T d <= norm y - norm s); [|lra]. unfold d. rewrite dot_sub_r by congruence. assert (dot T y <= norm y) by (eapply Rle_trans; [apply cauchy_schwarz; congruence|rewrite UT; lra]). assert (dot T s = norm s) by (unfold T; rewrite dot_scal_l; change (dot s s) with (sqn s); rewrite <- norm_sq; field; auto). lra. }
    assert (lam * w * dot X d <= lam * w * (norm y - norm s + tol * norm d)) by (apply Rmult_le_compat_l; [apply Rmult_le_pos; lra|auto]). lra. }
  assert (SP := scalar_part (norm x) w lam tol m c dl (norm a) lo hi (norm (soft_pos a lo u)) (norm (soft_pos a hi u)) Hw Hl Ht Hc Dl0 A0 Hlo Hm Hhi Hlo2 B1 B2 St1 St2 E1 Hm2).
  assert (Eu : dot u d = dot (vsub u x) d + dot x d) by (rewrite dot_sub_l by congruence; ring). rewrite Eu. unfold group_pen, active_error. fold dl.
  assert (SP2 : Rabs (norm x - lam * w) * norm d <= (tol * lam * w + dl / c * w + (lam + dl / c) * (/ 10 ^ 5 + 2 / 10 ^ 6 * (w + / 10 ^ 5 + norm a))) * norm d) by (apply Rmult_le_compat_r; [apply norm_nonneg|auto]).
  replace (dl * (1 + norm a / c)) with (dl + dl / c * norm a) by (field; lra). lra.
Qed.
