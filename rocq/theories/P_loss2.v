(** Documented values, tangents, second derivatives; where they fail. *)
From Coq Require Import Reals List Lra Lia Arith Bool.
From Verif Require Import Vec Spec SpecConvex M_loss SpecLoss P_quad P_calc P_sep P_loss.
Import ListNotations.
Local Open Scope R_scope.

(** ** Documented values *)
Lemma huber_doc : forall e a, 0 < e -> huber_val e a = huber_fun e a.
Proof.
  intros e a He. unfold huber_val, huber_fun. rewrite huber_proj_clip by auto. assert (E : a = e * (a / e)) by (field; lra). set (w := a / e) in *. clearbody w.
  destruct (Rle_dec (Rabs a) e) as [H|H].
  - apply Rcomplements_Rabs in H || (unfold Rabs in H; destruct (Rcase_abs a)); assert (-1 <= w <= 1) by nra; replace (Rmax (-1) (Rmin w 1)) with w by (unfold Rmin, Rmax; repeat destruct (Rle_dec _ _); lra); rewrite E; field; lra.
  - unfold Rabs in *. destruct (Rcase_abs a) as [N|N].
    + assert (w < -1) by nra. replace (Rmax (-1) (Rmin w 1)) with (-1) by (unfold Rmin, Rmax; repeat destruct (Rle_dec _ _); lra). lra.
    + assert (1 < w) by nra. replace (Rmax (-1) (Rmin w 1)) with 1 by (unfold Rmin, Rmax; repeat destruct (Rle_dec _ _); lra). lra.
Qed.
Lemma svm_doc : forall z, svm_val 1 z = smooth_hinge 1 z.
Proof.
  intros z. unfold svm_val, svm_arg, smooth_hinge. rewrite svm_proj_clip. replace ((1 - z) / 1) with (1 - z) by field. unfold Rmin, Rmax.
  replace (2 * 1) with 2 by ring. destruct (Rle_dec 1 z), (Rle_dec z (1 - 1)), (Rle_dec (1 - z) 1), (Rle_dec 0 _); try lra; first [replace z with 1 by lra; lra | replace z with 0 by lra; lra].
Qed.
Lemma softplus_gap : forall a, 0 < ln (1 + exp a) - a <= exp (- a).
Proof.
  intros a. assert (P := exp_pos a). assert (Q := exp_pos (- a)). assert (E : ln (1 + exp a) - a = ln (1 + exp (- a))).
  { replace (1 + exp a) with (exp a * (1 + exp (- a))) by (rewrite Rmult_plus_distr_l, <- exp_plus, Rplus_opp_r, exp_0; ring). rewrite ln_mult by lra. rewrite ln_exp. ring. }
  rewrite E. split; [rewrite <- ln_1; apply ln_increasing; lra|]. rewrite <- (ln_exp (exp (- a))) at 2. assert (X := exp_ineq1_le (exp (- a))). destruct X as [X|X]; [left; apply ln_increasing; lra|rewrite X; lra].
Qed.
Lemma val_doc : forall k n i a, fits k n -> exact_case k a -> val_case k i a = doc_case k i a.
Proof.
  intros k n i a F R. destruct k as [y|s t|y|s t|y e|s e]; cbn [fits exact_case val_case doc_case] in *; auto.
  - unfold log_exp1. destruct (Rle_dec a 100); [auto|lra].
  - rewrite clip5_id by auto. rewrite ln_exp. ring.
  - apply huber_doc. tauto.
  - subst e. apply svm_doc.
Qed.
Lemma nth_Forall : forall (P : R -> Prop) z i, Forall P z -> (i < length z)%nat -> P (nth i z 0).
Proof. intros P z i H Hi. rewrite Forall_forall in H. apply H, nth_In. auto. Qed.
Lemma predictor_length : forall k off x n, length x = n -> off_fits n off -> length (predictor k off x) = n.
Proof. intros. destruct k; cbn [predictor]; auto; apply minus_length; auto. Qed.
Theorem loss_value : forall k n c off cw x, fits k n -> off_fits n off -> length cw = n -> length x = n -> Forall (exact_case k) (predictor k off x) ->
  loss_func k c off cw x = doc_loss k n c cw (predictor k off x).
Proof.
  intros k n c off cw x F O Lc Lx R. rewrite (loss_func_cases k n) by auto. unfold doc_loss. f_equal. apply sum_over_ext. intros i Hi. f_equal. apply (val_doc k n); auto. apply nth_Forall; auto. rewrite (predictor_length k off x n); auto.
Qed.
(** Logistic beyond the overflow threshold *)
Lemma nonneg_nth : forall v i, nonneg v -> 0 <= nth i v 0.
Proof. intros v i H. destruct (Nat.lt_ge_cases i (length v)) as [L|L]; [apply (nth_Forall _ v i H L)|rewrite nth_overflow by auto; lra]. Qed.
Lemma log_exp1_close : forall a, log_exp1 a <= ln (1 + exp a) <= log_exp1 a + exp (-100).
Proof.
  intros a. assert (G := softplus_gap a). unfold log_exp1. assert (P := exp_pos (-100)). destruct (Rle_dec a 100); [lra|]. assert (exp (- a) <= exp (-100)) by (left; apply exp_increasing; lra). lra.
Qed.
Theorem logistic_overflow : forall s t n c off cw x, fits (Logistic s t) n -> off_fits n off -> length cw = n -> length x = n -> 0 <= c -> nonneg cw -> nonneg t ->
  loss_func (Logistic s t) c off cw x <= doc_loss (Logistic s t) n c cw (minus x off) <= loss_func (Logistic s t) c off cw x + c * (exp (-100) * dot cw t).
Proof.
  intros s t n c off cw x F O Lc Lx Hc Hw Ht. rewrite (loss_func_cases _ n) by auto. unfold doc_loss. cbn [predictor val_case doc_case]. destruct F as [Ls Lt]. rewrite (dot_index n) by auto.
  assert (B : forall i, 0 <= nth i cw 0 * nth i t 0) by (intros i; apply Rmult_le_pos; apply nonneg_nth; auto).
  rewrite <- Rmult_plus_distr_l, <- (sum_over_scal n (exp (-100))), <- sum_over_plus. split; (apply Rmult_le_compat_l; [auto|]); apply sum_over_le; intros i _; specialize (B i); assert (G := log_exp1_close (nth i (minus x off) 0));
    set (w := nth i cw 0) in *; set (u := nth i t 0) in *; set (L := log_exp1 (nth i (minus x off) 0)) in *; set (M := ln _) in *; set (e := exp (-100)) in *.
  - assert (w * u * L <= w * u * M) by (apply Rmult_le_compat_l; lra). lra.
  - assert (w * u * M <= w * u * (L + e)) by (apply Rmult_le_compat_l; lra). lra.
Qed.
(** ** Tangents *)
Definition slack_case (k : family) (i : nat) (b : R) : R := match k with Logistic _ t => if Rle_dec b 100 then 0 else nth i t 0 * exp (-100) | _ => 0 end.
Lemma case_tangent : forall k n i a b, fits k n -> convex_family k -> val_case k i a + grad_case k i a * (b - a) <= val_case k i b + slack_case k i b.
Proof.
  intros k n i a b F C. destruct k as [y|s t|y|s t|y e|s e]; cbn [fits convex_family val_case grad_case slack_case] in *; try contradiction.
  - assert (Q : 0 <= (b - a) * (b - a)) by apply Rle_0_sqr. lra.
  - assert (Ht : 0 <= nth i t 0) by (apply nonneg_nth; auto). set (u := nth i t 0) in *. set (v := nth i s 0) in *. assert (P100 := exp_pos (-100)).
    assert (T : log_exp1 a + ratio1 a * (b - a) <= log_exp1 b + (if Rle_dec b 100 then 0 else exp (-100))).
    { unfold ratio1. assert (Cb := log_exp1_close b). assert (Gb := softplus_gap b). destruct (Rle_dec a 100) as [A|A].
      - assert (S := tangent_1d (fun a => ln (1 + exp a)) (fun a => exp a / (1 + exp a)) d_softplus).
        assert (M : forall p q, p <= q -> exp p / (1 + exp p) <= exp q / (1 + exp q)).
        { intros p q H. assert (Pp := exp_pos p). assert (Pq := exp_pos q). assert (Hpq : exp p <= exp q) by (destruct H as [H|H]; [left; apply exp_increasing; auto|rewrite H; lra]).
          apply Rmult_le_reg_r with ((1 + exp p) * (1 + exp q)); [nra|]. replace (exp p / (1 + exp p) * ((1 + exp p) * (1 + exp q))) with (exp p * (1 + exp q)) by (field; lra). replace (exp q / (1 + exp q) * ((1 + exp p) * (1 + exp q))) with (exp q * (1 + exp p)) by (field; lra). nra. }
        specialize (S M a b). cbv beta in S. assert (La : log_exp1 a = ln (1 + exp a)) by (unfold log_exp1; destruct (Rle_dec a 100); lra). rewrite La. destruct (Rle_dec b 100) as [B|B]; [|lra]. unfold log_exp1. destruct (Rle_dec b 100); lra.
      - assert (La : log_exp1 a = a) by (unfold log_exp1; destruct (Rle_dec a 100); lra). rewrite La. unfold log_exp1. destruct (Rle_dec b 100); lra. }
    apply (Rmult_le_compat_l u _ _ Ht) in T. destruct (Rle_dec b 100); lra.
  - assert (S := tangent_1d exp exp derivable_pt_lim_exp). specialize (S ltac:(intros p q [H|H]; [left; apply exp_increasing; auto|rewrite H; lra]) a b). lra.
  - destruct F as [_ He]. assert (T := huber_tangent e (a - nth i y 0) (b - nth i y 0) He). replace (b - nth i y 0 - (a - nth i y 0)) with (b - a) in T by ring. lra.
  - subst e. set (u := 2 * nth i s 0 - 1). assert (T := svm_tangent (u * a) (u * b)). replace (u * b - u * a) with (u * (b - a)) in T by ring. lra.
Qed.
Lemma minus_diff : forall x y o n, length x = n -> length y = n -> off_fits n o -> vsub (minus y o) (minus x o) = vsub y x.
Proof.
  intros x y [o|] n Lx Ly Lo; cbn in *; auto. revert y o n Lx Ly Lo. unfold vsub. induction x as [|a x IH]; intros [|b y] [|e o] n Lx Ly Lo; cbn in *; try congruence; auto. destruct n; [discriminate|]. f_equal; [ring|]. apply (IH _ _ n); congruence.
Qed.
Theorem loss_tangent_slack : forall k n c off cw x y, fits k n -> off_fits n off -> length cw = n -> length x = n -> length y = n -> 0 <= c -> nonneg cw -> convex_family k ->
  loss_func k c off cw x + dot (loss_grad k c off cw x) (vsub y x) <= loss_func k c off cw y + c * sum_over n (fun i => nth i cw 0 * slack_case k i (nth i (predictor k off y) 0)).
Proof.
  intros k n c off cw x y F O Lc Lx Ly Hc Hw C. destruct (loss_grad_cases k n c off cw x F O Lc Lx) as [Lg Hg]. rewrite !(loss_func_cases k n) by auto.
  assert (Lp := predictor_length k off x n Lx O). assert (Lq := predictor_length k off y n Ly O).
  assert (E : vsub y x = vsub (predictor k off y) (predictor k off x)) by (symmetry; destruct k; cbn [predictor]; auto; apply (minus_diff _ _ _ n); auto).
  rewrite E. rewrite (dot_index n); auto; [|unfold vsub; apply zl; auto]. rewrite <- Rmult_plus_distr_l, <- sum_over_plus, <- !sum_over_scal, <- sum_over_plus. apply sum_over_le. intros i Hi. rewrite Hg by auto. unfold vsub. rewrite (nth_zip0 _ _ _ n) by auto.
  assert (T := case_tangent k n i (nth i (predictor k off x) 0) (nth i (predictor k off y) 0) F C). assert (W := nonneg_nth cw i Hw).
  set (p := nth i (predictor k off x) 0) in *. set (q := nth i (predictor k off y) 0) in *. set (w := nth i cw 0) in *.
  assert (B : 0 <= c * w) by (apply Rmult_le_pos; auto). assert (X := Rmult_le_compat_l (c * w) _ _ B T). lra.
Qed.
Theorem loss_tangent : forall k n c off cw x y, fits k n -> off_fits n off -> length cw = n -> length x = n -> length y = n -> 0 <= c -> nonneg cw -> convex_family k ->
  Forall (exact_case k) (predictor k off y) -> loss_func k c off cw x + dot (loss_grad k c off cw x) (vsub y x) <= loss_func k c off cw y.
Proof.
  intros k n c off cw x y F O Lc Lx Ly Hc Hw C R. assert (T := loss_tangent_slack k n c off cw x y F O Lc Lx Ly Hc Hw C).
  assert (Z : sum_over n (fun i => nth i cw 0 * slack_case k i (nth i (predictor k off y) 0)) = 0); [|rewrite Z in T; lra].
  rewrite (sum_over_ext n _ (fun i => 0 * 0)); [rewrite sum_over_scal; ring|]. intros i Hi. assert (N : exact_case k (nth i (predictor k off y) 0)) by (apply nth_Forall; auto; rewrite (predictor_length k off y n); auto).
  unfold slack_case. destruct k; try ring. cbn [exact_case predictor] in *. destruct (Rle_dec _ 100); [ring|lra].
Qed.
Theorem logistic_tangent : forall s t n c off cw x y, fits (Logistic s t) n -> off_fits n off -> length cw = n -> length x = n -> length y = n -> 0 <= c -> nonneg cw -> nonneg t ->
  loss_func (Logistic s t) c off cw x + dot (loss_grad (Logistic s t) c off cw x) (vsub y x) <= loss_func (Logistic s t) c off cw y + c * (exp (-100) * dot cw t).
Proof.
  intros s t n c off cw x y F O Lc Lx Ly Hc Hw Ht. assert (T := loss_tangent_slack (Logistic s t) n c off cw x y F O Lc Lx Ly Hc Hw Ht). eapply Rle_trans; [exact T|]. apply Rplus_le_compat_l, Rmult_le_compat_l; auto.
  destruct F as [Ls Lt]. rewrite (dot_index n) by auto. rewrite <- sum_over_scal. apply sum_over_le. intros i _. cbn [slack_case]. assert (W := nonneg_nth cw i Hw). assert (U := nonneg_nth t i Ht). assert (P := exp_pos (-100)). assert (B : 0 <= nth i cw 0 * nth i t 0) by (apply Rmult_le_pos; auto).
  assert (0 <= exp (-100) * (nth i cw 0 * nth i t 0)) by (apply Rmult_le_pos; lra). destruct (Rle_dec _ 100); lra.
Qed.
Theorem loss_convex : forall k n c off cw, fits k n -> off_fits n off -> length cw = n -> 0 <= c -> nonneg cw -> convex_family k -> (match k with Logistic _ _ => False | _ => True end) ->
  convex_on n (loss_func k c off cw).
Proof.
  intros k n c off cw F O Lc Hc Hw C N. apply (tangent_convex n _ (loss_grad k c off cw)); [intros x Lx; apply (loss_grad_cases k n); auto|]. intros x y Lx Ly. apply (loss_tangent k n); auto.
  apply Forall_forall. intros a _. destruct k; cbn in *; auto; contradiction.
Qed.
(** ** Second derivatives *)
Definition hess_case (k : family) (i : nat) (a : R) : R :=
  match k with Gaussian _ => 1 | Poisson _ => exp a | Logistic _ t => nth i t 0 * (exp a / ((1 + exp a) * (1 + exp a))) | _ => 0 end.
Lemma d_sigmoid : forall a, derivable_pt_lim (fun a => exp a / (1 + exp a)) a (exp a / ((1 + exp a) * (1 + exp a))).
Proof.
  intros a. assert (P := exp_pos a). replace (exp a / ((1 + exp a) * (1 + exp a))) with ((exp a * (1 + exp a) - (0 + exp a) * exp a) / Rsqr (1 + exp a)) by (unfold Rsqr; field; lra).
  apply (derivable_pt_lim_div exp (fun a => 1 + exp a)); [apply derivable_pt_lim_exp|apply derivable_pt_lim_plus; [apply derivable_pt_lim_const|apply derivable_pt_lim_exp]|lra].
Qed.
Lemma d_grad_case : forall k i a, twice_smooth k -> hess_regular k a -> derivable_pt_lim (grad_case k i) a (hess_case k i a).
Proof.
  intros k i a S R. destruct k as [y|s t|y|s t|y e|s e]; cbn [twice_smooth hess_regular grad_case hess_case] in *; try contradiction; unfold grad_case.
  - replace 1 with (1 - 0) by ring. apply derivable_pt_lim_minus; [apply derivable_pt_lim_id|apply derivable_pt_lim_const].
  - match goal with |- derivable_pt_lim _ _ ?v => replace v with (v - 0) by ring end. apply (derivable_pt_lim_minus (fun b => nth i t 0 * ratio1 b)); [|apply derivable_pt_lim_const]. apply (derivable_pt_lim_scal ratio1).
    apply (derive_local (fun a => exp a / (1 + exp a)) _ a _ (100 - a)); [lra| |apply d_sigmoid]. intros b Hb. apply Rabs_def2 in Hb. unfold ratio1. destruct (Rle_dec b 100); [auto|lra].
  - match goal with |- derivable_pt_lim _ _ ?v => replace v with (v - 0) by ring end. apply derivable_pt_lim_minus; [apply derivable_pt_lim_exp|apply derivable_pt_lim_const].
Qed.
Lemma logit_exp_small : forall x, Forall (fun a => a <= 100) x -> logit_exp x = map exp x.
Proof.
  intros x H. unfold logit_exp. destruct (existsb _ x) eqn:E; auto. apply existsb_exists in E. destruct E as (a & Ha & E). rewrite Forall_forall in H. specialize (H a Ha). destruct (Rlt_dec 100 a); [lra|discriminate].
Qed.
Lemma loss_hess_cases : forall k n c cw x, fits k n -> length cw = n -> length x = n -> twice_smooth k -> Forall (hess_regular k) x ->
  exists w, loss_hess k c cw x = Ok w /\ length w = n /\ forall i, (i < n)%nat -> nth i w 0 = c * (nth i cw 0 * hess_case k i (nth i x 0)).
Proof.
  intros k n c cw x F Lc Lx S R. destruct k as [y|s t|y|s t|y e|s e]; cbn [fits hess_case loss_hess hess_regular twice_smooth] in *; try contradiction.
  - exists (vscale c cw). split; auto. rewrite vscale_eq. unfold vscal. split; [len|]. intros i Hi. nths n. ring.
  - destruct F as [Ls Lt]. rewrite logit_exp_small by (eapply Forall_impl; [|exact R]; cbn; intros; lra). eexists. split; [reflexivity|]. rewrite vscale_eq. unfold vscal, vmul. split; [len|]. intros i Hi. nths n. ring.
  - eexists. split; [reflexivity|]. rewrite vscale_eq. unfold vscal, vmul. split; [len|]. intros i Hi. nths n. ring.
Qed.
Theorem loss_hessian : forall k n c cw x, fits k n -> length cw = n -> length x = n -> twice_smooth k -> Forall (hess_regular k) x ->
  exists w, loss_hess k c cw x = Ok w /\ length w = n /\ is_jacobian n (loss_grad k c None cw) x (fun d => vmul w d).
Proof.
  intros k n c cw x F Lc Lx S R. destruct (loss_hess_cases k n c cw x F Lc Lx S R) as (w & E & Lw & Hw). exists w. split; [auto|]. split; [auto|]. intros d i Ld Hi.
  assert (Hx : hess_regular k (nth i x 0)) by (apply nth_Forall; auto; lia).
  assert (D := derive_line (grad_case k i) (nth i x 0) (nth i d 0) _ (d_grad_case k i _ S Hx)). unfold vmul. rewrite (nth_zip0 _ _ _ n) by auto. rewrite Hw by auto.
  apply (derive_ext (fun t => (c * nth i cw 0) * grad_case k i (nth i x 0 + t * nth i d 0))).
  - intros t. assert (L : length (vadd x (vscal t d)) = n) by (unfold vadd, vscal; len). destruct (loss_grad_cases k n c None cw (vadd x (vscal t d)) F I Lc L) as [_ G]. rewrite G by auto.
    replace (predictor k None (vadd x (vscal t d))) with (vadd x (vscal t d)) by (destruct k; reflexivity). unfold vadd, vscal. nths n. ring.
  - replace (c * (nth i cw 0 * hess_case k i (nth i x 0)) * nth i d 0) with (c * nth i cw 0 * (hess_case k i (nth i x 0) * nth i d 0)) by ring. apply (derivable_pt_lim_scal (fun t => grad_case k i (nth i x 0 + t * nth i d 0))). auto.
Qed.

Lemma value_modes : forall k c off cw x, exists v g, smooth_value k c off cw x EvFunc = Ok (VFunc v) /\ smooth_value k c off cw x EvGrad = Ok (VGrad g) /\ smooth_value k c off cw x EvBoth = Ok (VBoth v g) /\
  smooth_value k c off cw x EvOther = Err ValueError /\ v = loss_func k c off cw x /\ g = loss_grad k c off cw x.
Proof. intros. do 2 eexists. repeat split. Qed.
