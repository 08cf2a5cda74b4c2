(** Multinomial losses: the gradient, the tangent inequality, invariance, deviance. *)
From Coq Require Import Reals List Lra Lia Arith Bool.
From Verif Require Import M_affine M_buffer M_loss SpecLoss P_loss P_loss2 P_loss4 P_loss6 Vec Spec SpecBlock SpecConvex P_calc P_sep P_cv P_block M_mglm SpecMglm P_mglm.
Import ListNotations.
Local Open Scope R_scope.

Lemma clip50_line : forall a d, -50 < a < 50 -> derivable_pt_lim (fun t => clip50 (a + t * d)) 0 d.
Proof.
  intros a d H. replace d with (1 * d) at 1 by ring. apply derive_line. apply (derive_local (fun b => b) clip50 a 1 (Rmin (50 - a) (a + 50))).
  - apply Rmin_glb_lt; lra.
  - intros b Hb. symmetry. apply clip50_id. assert (M1 := Rmin_l (50 - a) (a + 50)). assert (M2 := Rmin_r (50 - a) (a + 50)). unfold Rabs in Hb. destruct (Rcase_abs (b - a)); lra.
  - apply derivable_pt_lim_id.
Qed.
Lemma nth_map_seq : forall (F : nat -> R) n i, (i < n)%nat -> nth i (map F (seq 0 n)) 0 = F i.
Proof. intros F n i Hi. rewrite (nth_indep _ 0 (F 0%nat)) by (rewrite map_length, seq_length; auto). rewrite (map_nth F), seq_nth by auto. auto. Qed.
Lemma entry_lt : forall n q i j, (i < n)%nat -> (j < q)%nat -> (i * q + j < n * q)%nat.
Proof. intros. nia. Qed.
Lemma rows_entry : forall n q (x : vec) i, length x = (n * q)%nat -> (i < n)%nat -> nth i (rows n q x) [] = map (fun j => entry q x i j) (seq 0 q).
Proof.
  intros n q x i L Hi. assert (Lr := nth_rows_length n q x i L Hi). apply (nth_ext _ _ 0 0); [rewrite map_length, seq_length; auto|]. intros j Hj. rewrite Lr in Hj. rewrite nth_entry by auto. rewrite (nth_indep _ 0 ((fun j => entry q x i j) 0%nat)) by (rewrite map_length, seq_length; auto). rewrite (map_nth (fun j => entry q x i j)), seq_nth by auto. auto.
Qed.
Theorem multi_gradient : forall base n q counts c off cw x, multi_fits base n q counts off cw -> length x = (n * q)%nat -> inside 50 (minus x off) ->
  is_gradient (n * q) (multi_func base n q counts c off cw) x (multi_grad base n q counts c off cw x).
Proof.
  intros base n q counts c off cw x H Lx I. destruct (grad_rows base n q counts c off cw x H Lx) as (_ & Lg & Rg). split; auto. intros d Ld. assert (Hx := H). destruct H as (Lc & Fc & O & Lw & P).
  apply (derive_ext (fun t => c * sum_over n (fun i => nth i cw 0 * rl base (nth i counts []) (nth i (clipped n q off (vadd x (vscal t d))) [])))).
  { intros t. symmetry. apply func_rows; auto. vlen. }
  rewrite (dot_rows n q) by auto.
  replace (sum_over n (fun i => dot (nth i (rows n q (multi_grad base n q counts c off cw x)) []) (nth i (rows n q d) [])))
    with (c * sum_over n (fun i => nth i cw 0 * dot (rg base (nth i counts []) (nth i (clipped n q off x) [])) (nth i (rows n q d) []))).
  2:{ rewrite <- sum_over_scal. apply sum_over_ext. intros i Hi. rewrite Rg by auto. rewrite dot_scal_l. ring. }
  apply (derivable_pt_lim_scal (fun t => sum_over n (fun i => nth i cw 0 * rl base (nth i counts []) (nth i (clipped n q off (vadd x (vscal t d))) [])))).
  unfold sum_over at 2. apply (derive_vsum n (fun i t => nth i cw 0 * rl base (nth i counts []) (nth i (clipped n q off (vadd x (vscal t d))) []))); [|rewrite map_length, seq_length; auto].
  intros i Hi. rewrite nth_map_seq by auto.
  apply (derivable_pt_lim_scal (fun t => rl base (nth i counts []) (nth i (clipped n q off (vadd x (vscal t d))) []))).
  assert (E0 : nth i (clipped n q off x) [] = (fun t => nth i (clipped n q off (vadd x (vscal t d))) []) 0).
  { cbn. f_equal. f_equal. apply (nth_ext _ _ 0 0); [vlen|]. intros k Hk. unfold vadd, vscal. rewrite (nth_zip0 _ _ _ (n * q)), nth_map0 by (rewrite ?map_length; lia). ring. }
  rewrite E0. assert (Lm : forall z : vec, length z = (n * q)%nat -> length (map clip50 (minus z off)) = (n * q)%nat) by (intros z Lz; rewrite map_length; apply minus_length; auto).
  apply (derive_row base _ q (fun t => nth i (clipped n q off (vadd x (vscal t d))) [])); auto.
  - intros t. apply nth_rows_length; auto. apply Lm. vlen.
  - apply nth_rows_length; auto.
  - rewrite Forall_forall in Fc. apply Fc. apply nth_In. lia.
  - intros j Hj. assert (Hk := entry_lt n q i j Hi Hj). rewrite nth_entry by auto. unfold entry.
    apply (derive_ext (fun t => clip50 (nth (i * q + j) (minus x off) 0 + t * nth (i * q + j) d 0))).
    + intros t. unfold clipped. rewrite nth_entry by auto. unfold entry. change (sub_offset off (vadd x (vscal t d))) with (minus (vadd x (vscal t d)) off). rewrite nth_map0 by (rewrite (minus_length _ off (n * q)); auto; vlen).
      f_equal. destruct off as [a|]; cbn [minus].
      * cbn in O. unfold vsub, vadd, vscal. rewrite !(nth_zip0 _ _ _ (n * q)), nth_map0; auto; rewrite ?map_length, ?(vzip_length2 _ _ _ (n * q)); rewrite ?map_length; auto; try lia. ring.
      * unfold vadd, vscal. rewrite (nth_zip0 _ _ _ (n * q)), nth_map0; auto; rewrite ?map_length; auto; lia.
    + apply clip50_line. apply (nth_Forall (fun a => - 50 < a < 50)); auto. rewrite (minus_length _ off (n * q)); auto.
Qed.

(** ** The tangent inequality *)
Lemma exp_tangent : forall m a, exp m * (1 + (a - m)) <= exp a.
Proof.
  intros m a. replace a with (m + (a - m)) at 2 by ring. rewrite exp_plus. apply Rmult_le_compat_l; [left; apply exp_pos|]. generalize (a - m). intros b. destruct (Req_EM_T b 0) as [->|N]; [rewrite exp_0; lra|]. left. apply exp_ineq1. auto.
Qed.
Lemma sum_exp_tangent : forall m (e f : vec), length e = length f -> exp m * (vsum (map exp e) * (1 - m) + dot (map exp e) (vsub f e)) <= vsum (map exp f).
Proof.
  intros m. induction e as [|a e IH]; intros [|b f] L; try discriminate; [unfold vsum, dot; cbn; lra|]. injection L as L. specialize (IH f L). cbn [map]. change (vsub (b :: f) (a :: e)) with (b - a :: vsub f e). rewrite !vsum_cons, dot_cons.
  assert (T := exp_tangent m (b - a)). assert (E : exp b = exp a * exp (b - a)) by (rewrite <- exp_plus; f_equal; ring). assert (Pa := exp_pos a). assert (X : exp a * (exp m * (1 + (b - a - m))) <= exp b) by (rewrite E; apply Rmult_le_compat_l; lra). nra.
Qed.
Lemma row_tangent : forall (base : bool) ct e f q, length ct = (if base then S q else q) -> length e = q -> length f = q -> base = true \/ (0 < q)%nat -> 0 <= vsum ct ->
  rl base ct e + dot (rg base ct e) (vsub f e) <= rl base ct f.
Proof.
  intros base ct e f q Lt Le Lf P N. assert (T1 : 0 < total base e) by (apply total_pos; rewrite Le; auto). assert (T2 : 0 < total base f) by (apply total_pos; rewrite Lf; auto). assert (Lc := first_length base q ct Lt).
  set (m := dot (map exp e) (vsub f e) / total base e).
  assert (K : ln (total base e) + m <= ln (total base f)).
  { assert (Q : exp m * total base e <= total base f).
    { assert (Z := sum_exp_tangent m e f ltac:(congruence)). assert (D : dot (map exp e) (vsub f e) = m * total base e) by (unfold m; field; lra). rewrite D in Z. unfold total in *. destruct base; [|nra].
      assert (Z0 := exp_tangent m 0). rewrite exp_0 in Z0. nra. }
    replace m with (ln (exp m)) by apply ln_exp. rewrite Rplus_comm, <- ln_mult by auto using exp_pos. destruct Q as [Q|Q]; [left; apply ln_increasing; auto; apply Rmult_lt_0_compat; auto using exp_pos|rewrite Q; lra]. }
  unfold rl, rg. rewrite dot_sub_l by (vlen; rewrite ?map_length; lia). rewrite dot_scal_l. rewrite (dot_sub_r f e (first_counts base ct)) by lia.
  replace (vsum ct / total base e * dot (map exp e) (vsub f e)) with (vsum ct * m) by (unfold m; field; lra). nra.
Qed.
Lemma vsum_nonneg : forall v : vec, nonneg v -> 0 <= vsum v.
Proof. induction v as [|a v IH]; intros H; [unfold vsum; cbn; lra|]. rewrite vsum_cons. assert (A := Forall_inv H). cbn in A. specialize (IH (Forall_inv_tail H)). lra. Qed.
Lemma rows_sub : forall n q (x y : vec) i, length x = (n * q)%nat -> length y = (n * q)%nat -> (i < n)%nat -> nth i (rows n q (vsub x y)) [] = vsub (nth i (rows n q x) []) (nth i (rows n q y) []).
Proof.
  intros n q x y i Lx Ly Hi. rewrite !rows_entry by (auto; vlen). apply (nth_ext _ _ 0 0); [vlen; rewrite !map_length, !seq_length; auto|]. intros j Hj. rewrite map_length, seq_length in Hj. unfold vsub at 2.
  rewrite (nth_zip0 _ _ _ q) by (rewrite ?map_length, ?seq_length; auto). rewrite !nth_map_seq by auto. unfold entry, vsub. rewrite (nth_zip0 _ _ _ (n * q)); auto. apply entry_lt; auto.
Qed.
Theorem multi_tangent : forall base n q counts c off cw x y, multi_fits base n q counts off cw -> length x = (n * q)%nat -> length y = (n * q)%nat -> within 50 (minus x off) -> within 50 (minus y off) ->
  0 <= c -> nonneg cw -> counts_ok counts ->
  multi_func base n q counts c off cw x + dot (multi_grad base n q counts c off cw x) (vsub y x) <= multi_func base n q counts c off cw y.
Proof.
  intros base n q counts c off cw x y H Lx Ly Wx Wy C N K. rewrite !(func_rows base n q) by auto. destruct (grad_rows base n q counts c off cw x H Lx) as (_ & Lg & Rg). rewrite (dot_rows n q) by (auto; vlen).
  destruct H as (Lc & Fc & O & Lw & P). assert (Lmx := minus_length x off (n * q) Lx O). assert (Lmy := minus_length y off (n * q) Ly O).
  apply Rle_trans with (c * sum_over n (fun i => nth i cw 0 * rl base (nth i counts []) (nth i (clipped n q off x) []) + nth i cw 0 * dot (rg base (nth i counts []) (nth i (clipped n q off x) [])) (nth i (rows n q (vsub y x)) []))).
  - rewrite sum_over_plus, Rmult_plus_distr_l. apply Rplus_le_compat_l. right. rewrite <- sum_over_scal. apply sum_over_ext. intros i Hi. rewrite Rg by auto. rewrite dot_scal_l. ring.
  - apply Rmult_le_compat_l; auto. apply sum_over_le. intros i Hi. rewrite <- Rmult_plus_distr_l. apply Rmult_le_compat_l; [apply nonneg_nth; auto|].
    rewrite !clipped_id by auto. rewrite <- (minus_diff x y off (n * q)) by auto. rewrite rows_sub by auto. apply (row_tangent base _ _ _ q); auto.
    + rewrite Forall_forall in Fc. apply Fc. apply nth_In. lia.
    + apply nth_rows_length; auto.
    + apply nth_rows_length; auto.
    + apply vsum_nonneg. unfold counts_ok in K. rewrite Forall_forall in K. apply K. apply nth_In. lia.
Qed.

(** ** Adding a number to the predictors of one case; the gradient sums to zero over the categories *)
Lemma vsum_scal' : forall c (v : vec), vsum (vscal c v) = c * vsum v.
Proof. intros c. induction v as [|a v IH]; [unfold vsum; cbn; ring|]. change (vscal c (a :: v)) with (c * a :: vscal c v). rewrite !vsum_cons, IH. ring. Qed.
Lemma vsum_sub' : forall (v w : vec), length v = length w -> vsum (vsub v w) = vsum v - vsum w.
Proof. induction v as [|a v IH]; intros [|b w] L; try discriminate; [unfold vsum; cbn; ring|]. change (vsub (a :: v) (b :: w)) with (a - b :: vsub v w). rewrite !vsum_cons, IH by (cbn in L; auto). ring. Qed.
Theorem multi_grad_sum : forall n q counts c off cw x i, multi_fits false n q counts off cw -> length x = (n * q)%nat -> (i < n)%nat ->
  vsum (nth i (rows n q (multi_grad false n q counts c off cw x)) []) = 0.
Proof.
  intros n q counts c off cw x i H Lx Hi. destruct (grad_rows false n q counts c off cw x H Lx) as (_ & _ & Rg). rewrite Rg by auto. destruct H as (Lc & Fc & O & Lw & P).
  assert (Le : length (nth i (clipped n q off x) []) = q) by (apply nth_rows_length; auto; rewrite map_length; apply (minus_length x off); auto).
  assert (T : 0 < total false (nth i (clipped n q off x) [])) by (apply total_pos; rewrite Le; auto).
  rewrite vsum_scal'. unfold rg. rewrite vsum_sub'.
  - rewrite vsum_scal'. cbn [first_counts]. change (vsum (map exp (nth i (clipped n q off x) []))) with (total false (nth i (clipped n q off x) [])). field. lra.
  - rewrite vscal_length, map_length, Le. symmetry. apply (first_length false). rewrite Forall_forall in Fc. apply Fc. apply nth_In. lia.
Qed.
Lemma row_shift : forall ct e a q, length ct = q -> length e = q -> (0 < q)%nat -> rl false ct (map (Rplus a) e) = rl false ct e.
Proof.
  intros ct e a q Lt Le P. assert (T : 0 < total false e) by (apply total_pos; rewrite Le; auto). unfold rl, total in *. cbn [first_counts].
  assert (E : vsum (map exp (map (Rplus a) e)) = exp a * vsum (map exp e)). { clear. induction e as [|b e IH]; [unfold vsum; cbn; ring|]. cbn [map]. rewrite !vsum_cons, IH, exp_plus. ring. }
  assert (D : dot ct (map (Rplus a) e) = a * vsum ct + dot ct e). { clear - Lt Le. subst q. revert e Le. induction ct as [|k ct IH]; intros [|b e] L; try discriminate; [unfold vsum, dot; cbn; ring|]. cbn [map]. rewrite !dot_cons, vsum_cons, IH by (cbn in L; auto). ring. }
  rewrite E, D, ln_mult, ln_exp by auto using exp_pos. ring.
Qed.
Theorem multi_shift : forall n q counts c cw x y a, multi_fits false n q counts None cw -> length x = (n * q)%nat -> length y = (n * q)%nat -> within 50 x -> within 50 y ->
  (forall i j, (i < n)%nat -> (j < q)%nat -> entry q y i j = nth i a 0 + entry q x i j) ->
  multi_func false n q counts c None cw y = multi_func false n q counts c None cw x.
Proof.
  intros n q counts c cw x y a H Lx Ly W W' E. rewrite !(func_rows false n q) by auto. destruct H as (Lc & Fc & O & Lw & P). f_equal. apply sum_over_ext. intros i Hi. f_equal.
  rewrite !clipped_id by auto. cbn [minus]. replace (nth i (rows n q y) []) with (map (Rplus (nth i a 0)) (nth i (rows n q x) [])).
  - apply (row_shift _ _ _ q); auto; [rewrite Forall_forall in Fc; apply Fc; apply nth_In; lia|apply nth_rows_length; auto|destruct P; [discriminate|auto]].
  - rewrite !rows_entry by auto. rewrite map_map. apply map_ext_in. intros j Hj. apply in_seq in Hj. symmetry. apply E; auto. lia.
Qed.
