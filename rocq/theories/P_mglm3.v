(** Multinomial losses: deviance, two categories, what the clipping and the weights of the object do. *)
From Coq Require Import Reals List Lra Lia Arith Bool.
From Verif Require Import M_affine M_buffer P_buffer M_loss SpecLoss P_loss P_loss2 P_loss4 P_loss5 P_loss6 Vec Spec SpecBlock SpecConvex M_quad P_quad P_calc P_sep P_cv P_block M_mglm SpecMglm P_mglm P_mglm2.
Import ListNotations.
Local Open Scope R_scope.

(** ** Deviance *)
Lemma ln_below : forall z, 0 < z -> ln z <= z - 1.
Proof. intros z H. assert (T := exp_tangent 0 (ln z)). rewrite exp_0, exp_ln in T by auto. lra. Qed.
Lemma ln_below_strict : forall z, 0 < z -> ln z = z - 1 -> z = 1.
Proof.
  intros z H E. destruct (Req_EM_T (ln z) 0) as [Z|Z].
  - rewrite <- (exp_ln z) by auto. rewrite Z. apply exp_0.
  - exfalso. assert (T := exp_ineq1 (ln z) Z). rewrite exp_ln in T by auto. lra.
Qed.
Lemma gibbs_term : forall t a p, 0 < t -> 0 <= a -> 0 < p -> a - t * p <= multi_term t a - a * ln p /\ (multi_term t a - a * ln p = a - t * p -> a = t * p).
Proof.
  intros t a p T A P. assert (TP : 0 < t * p) by (apply Rmult_lt_0_compat; auto). unfold multi_term. destruct (Req_EM_T t 0); [lra|]. destruct (Req_EM_T a 0) as [->|N]; [split; [lra|intros E; lra]|].
  assert (A' : 0 < a) by lra. rewrite Rmult_1_l. assert (Z : 0 < t * p / a) by (apply Rdiv_lt_0_compat; auto).
  assert (E : ln (a / t) * a - a * ln p = - (a * ln (t * p / a))). { unfold Rdiv. rewrite !ln_mult, !ln_Rinv; auto using Rinv_0_lt_compat. ring. }
  assert (Q : a * (t * p / a - 1) = t * p - a) by (field; lra). split.
  - rewrite E. assert (B := ln_below _ Z). nra.
  - rewrite E. intros F. assert (X : ln (t * p / a) = t * p / a - 1) by (apply (Rmult_eq_reg_l a); [lra|lra]). apply ln_below_strict in X; auto. apply (Rmult_eq_reg_r (/ a)); [|apply Rinv_neq_0_compat; lra]. rewrite Rinv_r by lra. unfold Rdiv in X. lra.
Qed.
Lemma gibbs : forall (ct p : vec) t, length ct = length p -> 0 < t -> nonneg ct -> Forall (fun a => 0 < a) p ->
  vsum ct - t * vsum p <= vsum (map (multi_term t) ct) - dot ct (map ln p) /\ (vsum (map (multi_term t) ct) - dot ct (map ln p) = vsum ct - t * vsum p -> ct = vscal t p).
Proof.
  induction ct as [|a ct IH]; intros [|b p] t L T N P; try discriminate; [unfold vsum, dot; cbn; split; [lra|auto]|]. injection L as L.
  destruct (IH p t L T (Forall_inv_tail N) (Forall_inv_tail P)) as [I1 I2]. assert (Na := Forall_inv N). assert (Pb := Forall_inv P). cbn in Na, Pb. destruct (gibbs_term t a b T Na Pb) as [G1 G2].
  cbn [map]. rewrite !vsum_cons, dot_cons. split; [lra|]. intros E. change (vscal t (b :: p)) with (t * b :: vscal t p). f_equal; [apply G2; lra|apply I2; lra].
Qed.
Lemma vsum_div : forall S (v : vec), vsum (map (fun a => a / S) v) = vsum v / S.
Proof. intros S. induction v as [|a v IH]; [unfold vsum; cbn; lra|cbn [map]; rewrite !vsum_cons, IH; lra]. Qed.
Lemma softmax_spec : forall e : vec, (0 < length e)%nat -> vsum (softmax e) = 1 /\ Forall (fun a => 0 < a) (softmax e) /\ length (softmax e) = length e.
Proof.
  intros e H. assert (T := total_pos false e (or_intror H)). unfold total in T. unfold softmax. split; [|split; [|apply map_length]].
  - rewrite <- (map_map exp (fun a => a / vsum (map exp e))). rewrite vsum_div. field. lra.
  - apply Forall_forall. intros a Ha. apply in_map_iff in Ha. destruct Ha as (b & <- & _). apply Rdiv_lt_0_compat; auto using exp_pos.
Qed.
Lemma nonneg_zero : forall v : vec, nonneg v -> vsum v = 0 -> v = zeros (length v).
Proof.
  induction v as [|a v IH]; intros N E; auto. rewrite vsum_cons in E. assert (A := Forall_inv N). cbn in A. assert (B := vsum_nonneg v (Forall_inv_tail N)). cbn. f_equal; [lra|]. apply IH; [exact (Forall_inv_tail N)|lra].
Qed.
Lemma dev_row : forall ct e : vec, length ct = length e -> (0 < length e)%nat -> nonneg ct ->
  0 <= vsum (map (multi_term (vsum ct)) ct) - dot ct (map ln (softmax e)) /\
  (vsum (map (multi_term (vsum ct)) ct) - dot ct (map ln (softmax e)) = 0 <-> (vsum ct <> 0 -> proportions ct = softmax e)).
Proof.
  intros ct e L Le N. destruct (softmax_spec e Le) as (S1 & S2 & S3). assert (P := vsum_nonneg ct N). destruct (Req_EM_T (vsum ct) 0) as [Z|Z].
  - assert (E : vsum (map (multi_term (vsum ct)) ct) - dot ct (map ln (softmax e)) = 0).
    { rewrite Z. assert (X := nonneg_zero ct N Z). rewrite X. rewrite dot_zeros_l. rewrite <- X. assert (Y : forall v : vec, vsum (map (multi_term 0) v) = 0). { induction v as [|a v IH]; auto. cbn [map]. rewrite vsum_cons, IH. unfold multi_term. destruct (Req_EM_T 0 0); lra. } rewrite Y. lra. }
    split; [lra|]. split; auto. intros _ H. contradiction.
  - assert (T : 0 < vsum ct) by lra. destruct (gibbs ct (softmax e) (vsum ct)) as [G1 G2]; auto; [lia|]. rewrite S1 in G1, G2. replace (vsum ct - vsum ct * 1) with 0 in G1, G2 by ring. split; [auto|]. split.
    + intros E _. assert (X := G2 E). unfold proportions. rewrite <- (map_id (softmax e)). assert (Y : forall v w : vec, v = vscal (vsum ct) w -> map (fun a => a / vsum ct) v = map (fun a => a) w). { clear - T. intros v w ->. unfold vscal. rewrite map_map. apply map_ext. intros a. field. lra. } apply Y. auto.
    + intros H. specialize (H Z). apply Rle_antisym; [|auto]. rewrite <- H. clear - N T.
      assert (K : forall v : vec, nonneg v -> vsum (map (multi_term (vsum ct)) v) = dot v (map ln (map (fun a => a / vsum ct) v))).
      { induction v as [|a v IH]; intros Nv; auto. cbn [map]. rewrite vsum_cons, dot_cons, IH by exact (Forall_inv_tail Nv). unfold multi_term. destruct (Req_EM_T (vsum ct) 0); [lra|]. destruct (Req_EM_T a 0) as [->|]; [ring|]. rewrite Rmult_1_l. ring. }
      unfold proportions. rewrite K by auto. lra.
Qed.
Lemma sum_zero : forall n F, (forall i, (i < n)%nat -> 0 <= F i) -> (0 <= sum_over n F /\ (sum_over n F = 0 <-> forall i, (i < n)%nat -> F i = 0)).
Proof.
  induction n as [|n IH]; intros F H; [unfold sum_over, vsum; cbn; split; [lra|split; auto; intros; lia]|]. rewrite sum_over_S. destruct (IH F) as [I1 I2]; [intros; apply H; lia|]. assert (Hn := H n ltac:(lia)). split; [lra|]. split.
  - intros E i Hi. destruct (Nat.eq_dec i n) as [->|Ne]; [lra|]. apply I2; [lra|lia].
  - intros E. rewrite (E n) by lia. rewrite (proj2 I2) by (intros; apply E; lia). ring.
Qed.
Lemma nth_all_predictors : forall (base : bool) n (eta : list vec) i, length eta = n -> (i < n)%nat -> nth i (all_predictors base eta) [] = if base then nth i eta [] ++ [0] else nth i eta [].
Proof.
  intros base n eta i L Hi. unfold all_predictors. rewrite (nth_indep (map (fun e : vec => if base then e ++ [0] else e) eta) [] ((fun e : vec => if base then e ++ [0] else e) [])) by (rewrite map_length; lia). rewrite (map_nth (fun e : vec => if base then e ++ [0] else e)). destruct base; auto.
Qed.
Lemma nth_ones : forall n i, (i < n)%nat -> nth i (ones n) 0 = 1.
Proof. intros n i Hi. unfold ones, const_vec. revert i Hi. induction n as [|n IH]; intros [|i] Hi; cbn; auto; try lia. apply IH. lia. Qed.
Theorem multi_deviance : forall base n q counts c off x, multi_fits base n q counts off (ones n) -> length x = (n * q)%nat -> within 50 (minus x off) -> counts_ok counts -> 0 < c ->
  0 <= multi_func base n q counts c off (ones n) x + multi_const counts c /\
  (multi_func base n q counts c off (ones n) x + multi_const counts c = 0 <->
   forall i, (i < n)%nat -> vsum (nth i counts []) <> 0 -> proportions (nth i counts []) = softmax (nth i (all_predictors base (rows n q (minus x off))) [])).
Proof.
  intros base n q counts c off x H Lx W K C. rewrite (multi_value_eq base n q) by auto. destruct H as (Lc & Fc & O & Lw & P). assert (Lm := minus_length x off (n * q) Lx O). set (eta := rows n q (minus x off)) in *. assert (Le : length eta = n) by apply rows_length.
  set (F := fun i => vsum (map (multi_term (vsum (nth i counts []))) (nth i counts [])) - dot (nth i counts []) (map ln (softmax (nth i (all_predictors base eta) [])))).
  assert (E : c * neg_log_lik counts (ones n) (all_predictors base eta) + multi_const counts c = c * sum_over n F).
  { unfold neg_log_lik, multi_const. rewrite Lc, vsum_concat, map_map. rewrite (vsum_map_index (fun ct => vsum (map (multi_term (vsum ct)) ct)) [] counts), Lc.
    replace (c * - sum_over n (fun i => nth i (ones n) 0 * dot (nth i counts []) (map ln (softmax (nth i (all_predictors base eta) [])))) + - (- c * sum_over n (fun k => vsum (map (multi_term (vsum (nth k counts []))) (nth k counts [])))))
      with (c * (sum_over n (fun k => vsum (map (multi_term (vsum (nth k counts []))) (nth k counts []))) + -1 * sum_over n (fun i => nth i (ones n) 0 * dot (nth i counts []) (map ln (softmax (nth i (all_predictors base eta) [])))))) by ring.
    f_equal. rewrite <- sum_over_scal, <- sum_over_plus. apply sum_over_ext. intros i Hi. unfold F. replace (nth i (ones n) 0) with 1 by (symmetry; apply nth_ones; auto). ring. }
  rewrite E. assert (D : forall i, (i < n)%nat -> 0 <= F i /\ (F i = 0 <-> (vsum (nth i counts []) <> 0 -> proportions (nth i counts []) = softmax (nth i (all_predictors base eta) [])))).
  { intros i Hi. assert (Hr : length (nth i eta []) = q) by (apply nth_rows_length; auto). assert (Lt : length (nth i counts []) = if base then S q else q) by (rewrite Forall_forall in Fc; apply Fc; apply nth_In; lia).
    apply dev_row.
    - rewrite (nth_all_predictors base n) by auto. destruct base; rewrite ?app_length; cbn; lia.
    - rewrite (nth_all_predictors base n) by auto. destruct base; rewrite ?app_length; cbn; [lia|]. destruct P; [discriminate|lia].
    - unfold counts_ok in K. rewrite Forall_forall in K. apply K. apply nth_In. lia. }
  destruct (sum_zero n F) as [Z1 Z2]; [intros i Hi; apply D; auto|]. split; [apply Rmult_le_pos; lra|]. split.
  - intros Z i Hi. apply (proj2 (D i Hi)). apply Z2; auto. apply (Rmult_eq_reg_l c); lra.
  - intros Z. rewrite (proj2 Z2); [ring|]. intros i Hi. apply (proj2 (D i Hi)). auto.
Qed.

(** ** Two categories: the logistic loss *)
Theorem two_categories : forall n counts c off cw x, multi_fits true n 1 counts off cw -> length x = n -> within 50 (minus x off) ->
  multi_func true n 1 counts c off cw x = loss_func (Logistic (map (fun ct => nth 0 ct 0) counts) (map vsum counts)) c off cw x.
Proof.
  intros n counts c off cw x H Lx W. assert (Lx' : length x = (n * 1)%nat) by lia. rewrite (func_rows true n 1) by auto. destruct H as (Lc & Fc & O & Lw & P). rewrite Nat.mul_1_r in O.
  rewrite (loss_value _ n) by (auto; cbn; rewrite ?map_length; auto; apply Forall_forall; intros a Ha; unfold within in W; rewrite Forall_forall in W; specialize (W a Ha); cbn; lra).
  unfold doc_loss. f_equal. apply sum_over_ext. intros i Hi. f_equal. rewrite clipped_id by auto. assert (Lm := minus_length x off n Lx O). rewrite rows_entry by lia. cbn [seq map]. unfold entry. replace (i * 1 + 0)%nat with i by lia.
  cbn [doc_case predictor]. rewrite (nth_indep (map vsum counts) 0 (vsum [])) by (rewrite map_length; lia). rewrite (map_nth vsum). rewrite (nth_indep (map (fun ct : vec => nth 0 ct 0) counts) 0 ((fun ct : vec => nth 0 ct 0) [])) by (rewrite map_length; lia). rewrite (map_nth (fun ct : vec => nth 0 ct 0)).
  unfold rl, total. cbn [map]. rewrite vsum_cons. replace (exp (nth i (minus x off) 0) + vsum []) with (exp (nth i (minus x off) 0)) by (unfold vsum; cbn; ring).
  assert (Lt : length (nth i counts []) = 2%nat) by (rewrite Forall_forall in Fc; apply Fc; apply nth_In; lia). destruct (nth i counts []) as [|a [|b [|]]]; try discriminate. cbn. change (dot [a] [nth i (minus x off) 0]) with (a * nth i (minus x off) 0 + 0). ring.
Qed.

(** ** The clipping *)
Lemma clip50_flat : forall a t, 50 < Rabs a -> Rabs t < Rabs a - 50 -> clip50 (a + t) = clip50 a.
Proof.
  intros a t Ha Ht. unfold clip50. unfold Rabs in *. destruct (Rcase_abs a), (Rcase_abs t).
  all: first [rewrite !Rmin_left by lra; rewrite !Rmax_left by lra; reflexivity|rewrite !Rmin_right by lra; reflexivity].
Qed.
Lemma multi_flat : forall base n q counts c off cw x k, off_fits (n * q) off -> length x = (n * q)%nat -> (k < n * q)%nat -> 50 < Rabs (nth k (minus x off) 0) ->
  derivable_pt_lim (fun t => multi_func base n q counts c off cw (vadd x (vscal t (unit_vec (n * q) k)))) 0 0.
Proof.
  intros base n q counts c off cw x k O Lx Hk Hb. set (m := (n * q)%nat) in *. apply (derive_local (fun _ => multi_func base n q counts c off cw x) _ 0 0 (Rabs (nth k (minus x off) 0) - 50)); [lra| |apply (derivable_pt_lim_const (multi_func base n q counts c off cw x))].
  intros t Ht. rewrite Rminus_0_r in Ht. assert (Lu : length (unit_vec m k) = m) by (unfold unit_vec; rewrite map_length, seq_length; auto). assert (Lv : length (vadd x (vscal t (unit_vec m k))) = m) by vlen.
  assert (E : map clip50 (minus (vadd x (vscal t (unit_vec m k))) off) = map clip50 (minus x off)).
  { apply (nth_ext _ _ 0 0); [rewrite !map_length, !(minus_length _ off m); auto|]. intros i Hi. rewrite map_length, (minus_length _ off m) in Hi by auto. rewrite !nth_map0 by (rewrite (minus_length _ off m); auto).
    assert (X : nth i (minus (vadd x (vscal t (unit_vec m k))) off) 0 = nth i (minus x off) 0 + t * nth i (unit_vec m k) 0).
    { destruct off as [a|]; cbn [minus].
      - cbn in O. unfold vsub, vadd, vscal. rewrite !(nth_zip0 _ _ _ m), nth_map0; auto; rewrite ?map_length, ?(vzip_length2 _ _ _ m); rewrite ?map_length; auto; try lia. ring.
      - unfold vadd, vscal. rewrite (nth_zip0 _ _ _ m), nth_map0; auto; rewrite ?map_length; auto; lia. }
    rewrite X. unfold unit_vec. rewrite nth_map_seq by auto. destruct (Nat.eqb_spec i k) as [->|N].
    - rewrite Rmult_1_r. apply clip50_flat; auto.
    - f_equal. ring. }
  unfold multi_func, clipped. change (sub_offset off (vadd x (vscal t (unit_vec m k)))) with (minus (vadd x (vscal t (unit_vec m k))) off). rewrite E. reflexivity.
Qed.
(** beyond the threshold the reported gradient is that of the clipped predictor, the value does not change *)
Theorem multi_clip_gradient : forall base n q counts c off cw x i j g, multi_fits base n q counts off cw -> length x = (n * q)%nat -> (i < n)%nat -> (j < q)%nat -> 50 < Rabs (entry q (minus x off) i j) ->
  is_gradient (n * q) (multi_func base n q counts c off cw) x g -> entry q g i j = 0.
Proof.
  intros base n q counts c off cw x i j g (Lc & Fc & O & Lw & P) Lx Hi Hj Hb [Lg G]. assert (Hk := entry_lt n q i j Hi Hj). assert (Lu : length (unit_vec (n * q) (i * q + j)) = (n * q)%nat) by (unfold unit_vec; rewrite map_length, seq_length; auto).
  assert (U := uniqueness_limite _ _ _ _ (G _ Lu) (multi_flat base n q counts c off cw x (i * q + j) O Lx Hk Hb)). rewrite P_affine2.dot_unit in U by auto. exact U.
Qed.
Lemma exp_le_mono : forall a b, a <= b -> exp a <= exp b.
Proof. intros a b [H| ->]; [left; apply exp_increasing; auto|lra]. Qed.
Lemma clip_fits : multi_fits false 1 2 [[0; 1]] None [1].
Proof. repeat split; auto. Qed.
Theorem multi_clip_wrong : ~ is_gradient 2 (multi_func false 1 2 [[0; 1]] 1 None [1]) [60; 0] (multi_grad false 1 2 [[0; 1]] 1 None [1] [60; 0]).
Proof.
  intros G. assert (E := multi_clip_gradient false 1 2 [[0; 1]] 1 None [1] [60; 0] 0 0 (multi_grad false 1 2 [[0; 1]] 1 None [1] [60; 0]) clip_fits eq_refl ltac:(lia) ltac:(lia)). unfold entry in E. cbn [minus Nat.mul Nat.add nth] in E. specialize (E ltac:(rewrite Rabs_right; lra) G).
  unfold multi_grad in E. rewrite vscale_eq in E. unfold clipped in E. cbn [sub_offset map rows firstn skipn map3 concat app first_counts] in E. assert (C1 : clip50 60 = 50) by (unfold clip50; rewrite Rmin_right by lra; apply Rmax_right; lra). assert (C2 := clip50_id 0 ltac:(lra)). rewrite C1, C2 in E.
  unfold total in E. cbn [map] in E. unfold vsum in E. cbn in E. rewrite exp_0 in E. assert (P := exp_pos 50). unfold Rdiv in E. rewrite !Rplus_0_r, Rplus_0_l, !Rmult_1_l in E. assert (X : 0 < / (exp 50 + 1) * exp 50) by (apply Rmult_lt_0_compat; auto; apply Rinv_0_lt_compat; lra). lra.
Qed.
Theorem multi_not_convex : ~ convex_on 2 (multi_func false 1 2 [[0; 1]] 1 None [1]).
Proof.
  intros C. specialize (C [0; 0] [100; 0] (1 / 2) eq_refl eq_refl ltac:(lra)). rewrite !(func_rows false 1 2) in C by (auto using clip_fits; unfold between; vlen). unfold sum_over in C. cbn [seq map] in C.
  unfold clipped, between in C. cbn in C.
  assert (C1 : clip50 100 = 50) by (unfold clip50; rewrite Rmin_right by lra; apply Rmax_right; lra). assert (C2 := clip50_id 0 ltac:(lra)).
  replace (0 + 1 / 2 * (100 - 0)) with 50 in C by lra. replace (0 + 1 / 2 * (0 - 0)) with 0 in C by lra. assert (C3 := clip50_id 50 ltac:(lra)). rewrite ?C1, ?C2, ?C3 in C.
  unfold rl, total in C. cbn [first_counts map] in C. unfold vsum, dot in C. cbn in C. rewrite exp_0 in C.
  assert (L : ln (1 + 1) < ln (exp 50 + 1)) by (apply ln_increasing; [lra|]; assert (Q := exp_increasing 0 50 ltac:(lra)); rewrite exp_0 in Q; lra). rewrite !Rplus_0_r, Rplus_0_l in C. lra.
Qed.
(** ** Weights given to the constructor *)
Theorem multi_ignores : exists h l, new_multi h false 1 2 [[1; 1]] 1 None None (Some 0%nat) = Ok l /\ m_cw l = Some 0%nat /\ read h 0%nat = [0] /\
  multi_eval h l None [0; 0] EvFunc = Ok (VFunc (2 * ln 2)) /\ neg_log_lik [[1; 1]] [0] [[0; 0]] = 0.
Proof.
  exists [[0]]. unfold new_multi. destruct (Rlt_dec 1 0); [lra|]. replace (multi_check false 2 [[1; 1]]) with true.
  2:{ unfold multi_check. cbn. destruct (Rlt_dec 1 0); [lra|]. auto. }
  cbn [negb]. eexists. split; [|split; [|split; [|split]]].
  - cbn. destruct (Rlt_dec 0 0); [lra|]. cbn. reflexivity.
  - reflexivity.
  - reflexivity.
  - unfold multi_eval, multi_value. do 2 f_equal. cbn [m_base m_rows m_cols m_counts m_coef m_offset]. rewrite (func_rows false 1 2) by (auto; repeat split; auto). unfold sum_over. cbn [seq map]. unfold clipped. cbn. assert (C2 := clip50_id 0 ltac:(lra)). rewrite C2.
    unfold rl, total. cbn [first_counts map]. unfold vsum, dot. cbn. rewrite exp_0. replace (1 + (1 + 0)) with 2 by ring. ring.
  - unfold neg_log_lik, sum_over, vsum. cbn. ring.
Qed.
Theorem multi_weighted_deviance : exists cw, nonneg cw /\ multi_fits false 1 2 [[1; 1]] None cw /\ multi_func false 1 2 [[1; 1]] 1 None cw [0; 0] + multi_const [[1; 1]] 1 < 0.
Proof.
  exists [0]. assert (F : multi_fits false 1 2 [[1; 1]] None [0]) by (repeat split; auto). split; [repeat constructor; lra|]. split; auto. rewrite (func_rows false 1 2) by auto. unfold sum_over. cbn [seq map nth]. unfold multi_const. cbn [map concat app]. unfold multi_term, vsum. cbn.
  repeat (destruct (Req_EM_T _ _); try lra). replace (1 / (1 * (1 + (1 + 0)))) with (/ 2) by field. rewrite ln_Rinv by lra. assert (L : 0 < ln 2) by (rewrite <- ln_1; apply ln_increasing; lra). lra.
Qed.
(** subsample writes into the weights of the original and changes no value *)
Theorem multi_subsample : forall h l idx, Forall (fun i => (i < m_rows l)%nat) idx -> exists h' l', subsample_multi h l idx = (h', Ok l') /\
  (forall x m, multi_eval h' l' None x m = multi_eval h l None x m) /\
  (forall w, m_cw l = Some w -> (w < length h)%nat -> l' = l /\ read h' w = restrict idx (read h w)).
Proof.
  intros h l idx F. unfold subsample_multi. replace (forallb (fun i => Nat.ltb i (m_rows l)) idx) with true by (symmetry; apply forallb_forall; rewrite Forall_forall in F; intros i Hi; apply Nat.ltb_lt; auto). cbn [negb].
  destruct (m_cw l) as [w|] eqn:E; eexists; eexists; (split; [reflexivity|]); (split; [intros; reflexivity|]); intros w' Hw' Lw; [|discriminate]. injection Hw' as <-. split; auto. rewrite read_write_same by auto. apply indicator_restrict.
Qed.
(** ** The constructor *)
Theorem new_multi_accepts : forall h (base : bool) n q (counts : list vec) c off weights J, (0 < length counts)%nat -> Forall (fun ct : vec => length ct = J) counts ->
  ((exists l, new_multi h base n q counts c off None weights = Ok l) <-> 0 <= c /\ counts_ok counts /\
     (base = true -> J = S q /\ Forall (Forall (fun a => exists z : Z, Rabs (a - IZR z) <= / 10 ^ 8 + / 10 ^ 5 * Rabs a)) counts) /\ (forall r, weights = Some r -> legal_weights n (read h r))) /\
  ((forall l, new_multi h base n q counts c off None weights <> Ok l) -> new_multi h base n q counts c off None weights = Err ValueError).
Proof.
  intros h base n q counts c off weights J Lp FJ. unfold new_multi. destruct (Rlt_dec c 0) as [Hc|Hc].
  { split; auto. split; [intros (l & E); discriminate|]. intros (H & _). lra. }
  assert (HJ : match counts with ct :: _ => length ct | [] => 0%nat end = J) by (destruct counts; [cbn in Lp; lia|exact (Forall_inv FJ)]).
  assert (C : multi_check base q counts = true <-> counts_ok counts /\ (base = true -> J = S q /\ Forall (Forall (fun a => exists z : Z, Rabs (a - IZR z) <= / 10 ^ 8 + / 10 ^ 5 * Rabs a)) counts)).
  { unfold multi_check. rewrite HJ. rewrite andb_true_iff, negb_true_iff. assert (A : existsb any_neg counts = false <-> counts_ok counts).
    { unfold counts_ok, nonneg. rewrite Forall_forall. split.
      - intros H ct Hct. apply any_neg_false. destruct (any_neg ct) eqn:E; auto. exfalso. assert (X : existsb any_neg counts = true) by (apply existsb_exists; eauto). congruence.
      - intros H. destruct (existsb any_neg counts) eqn:E; auto. exfalso. apply existsb_exists in E. destruct E as (ct & I & E). specialize (H ct I). apply any_neg_false in H. congruence. }
    rewrite A. destruct base; [|intuition discriminate]. rewrite andb_true_iff, Nat.eqb_eq, forallb_forall.
    assert (B : (forall ct, In ct counts -> forallb near_integer ct = true) <-> Forall (Forall (fun a => exists z : Z, Rabs (a - IZR z) <= / 10 ^ 8 + / 10 ^ 5 * Rabs a)) counts).
    { rewrite Forall_forall. split; intros H ct Hct; specialize (H ct Hct); [rewrite forallb_forall in H; apply Forall_forall; intros a Ha; apply near_integer_spec; auto|rewrite Forall_forall in H; apply forallb_forall; intros a Ha; apply near_integer_spec; auto]. }
    rewrite B. intuition congruence. }
  destruct (multi_check base q counts); cbn [negb].
  2:{ split; auto. split; [intros (l & E); discriminate|]. intros (_ & H1 & H2 & _). assert (false = true) by (apply C; auto). discriminate. }
  assert (W : (match weights with Some r => any_neg (read h r) || negb (Nat.eqb (length (read h r)) n) | None => false end = false) <-> (forall r, weights = Some r -> legal_weights n (read h r))).
  { destruct weights as [r|].
    - rewrite orb_false_iff, negb_false_iff, any_neg_false, Nat.eqb_eq. split; [intros (A & B) r' E; injection E as <-; split; auto|]. intros H. destruct (H r eq_refl). auto.
    - split; auto. intros _ r E. discriminate. }
  cbn [q_add rbind]. cbn. destruct (match weights with Some r => _ | None => false end).
  { split; auto. split; [intros (l & E); discriminate|]. intros (_ & _ & _ & H). apply W in H. discriminate. }
  split; [split; [|intros _; eexists; reflexivity]|intros H; exfalso; eapply H; reflexivity]. intros _. split; [lra|]. destruct (proj1 C eq_refl). split; [auto|]. split; [auto|]. apply W. reflexivity.
Qed.
