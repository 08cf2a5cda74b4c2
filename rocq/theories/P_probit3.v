(** The offset of a probit loss; the complementary log-log loss on the range where it is not clipped. *)
From Coq Require Import Reals List Lra Lia Arith Bool.
From Verif Require Import M_affine M_buffer P_buffer Vec Spec SpecConvex M_quad M_loss SpecLoss M_probit SpecNormal SpecProbit P_quad P_calc P_sep P_loss P_loss2 P_loss4 P_normal P_probit1 P_probit2.
Import ListNotations.
Local Open Scope R_scope.

Theorem probit_offset_ignored : forall cdf pdf, is_normal cdf pdf -> exists l, new_probit [] [1] (Some [1]) 1 1 (Some [1]) None None = Ok l /\ pl_offset l = Some [1] /\
  exists v, snd (probit_eval cdf pdf [] l None [0] EvFunc) = Ok (VFunc v) /\ v < doc_binomial cdf [1] [1] 1 1 [1] (vsub [0] [1]).
Proof.
  intros cdf pdf N. assert (C : counts 1 [1] [1]) by (split; [auto|split; [auto|intros [|i] Hi; [cbn; lra|lia]]]).
  destruct (new_ok [] [1] (Some [1]) 1 1 (Some [1]) None None [1] ltac:(lra) (proj1 (set_data_given None [1] (Some [1]) [1] eq_refl) C) eq_refl) as (q1 & _ & E).
  eexists. split; [exact E|]. split; [cbn; destruct (Req_EM_T 1 0); [lra|auto]|]. eexists. split; [reflexivity|]. cbn [pl_s pl_t pl_coef pl_cw].
  match goal with |- probit_func _ _ _ _ ?cw _ < _ => replace cw with [1] by reflexivity end. rewrite (probit_func_cases cdf [1] [1] 1) by auto. unfold doc_binomial, sum_over. cbn -[pval binomial_nll]. unfold pval, binomial_nll, prob. destruct (Rlt_dec 0 (-20)); [lra|].
  assert (P := cdf_pos cdf pdf N (0 - 1)). assert (M := cdf_mono cdf pdf N (0 - 1) 0 ltac:(lra)). assert (L := ln_increasing _ _ P M). lra.
Qed.

(** ** Complementary log-log: F(a) = 1 - exp(-e^a), density exp(a - e^a) *)
Definition gcdf (a : R) : R := 1 - exp (- exp a).
Definition gpdf (a : R) : R := exp (a - exp a).
Lemma gpdf_eq : forall a, gpdf a = exp a * exp (- exp a).
Proof. intros a. unfold gpdf, Rminus. rewrite exp_plus. auto. Qed.
Lemma gcdf_deriv : forall a, derivable_pt_lim gcdf a (gpdf a).
Proof.
  intros a. assert (D := derivable_pt_lim_minus (fun _ => 1) (fun a => exp (- exp a)) a _ _ (derivable_pt_lim_const 1 a) (d_exp_neg_exp a)). rewrite gpdf_eq. replace (exp a * exp (- exp a)) with (0 - exp (- exp a) * - exp a) by ring. exact D.
Qed.
Lemma gratio_c : forall a, gpdf a / (1 - gcdf a) = exp a.
Proof. intros a. rewrite gpdf_eq. unfold gcdf. replace (1 - (1 - exp (- exp a))) with (exp (- exp a)) by ring. field. apply Rgt_not_eq, exp_pos. Qed.
(** u / (e^u - 1) decreases *)
Lemma uexp_decreasing : forall u v, 0 < u -> u <= v -> v * exp (- v) / (1 - exp (- v)) <= u * exp (- u) / (1 - exp (- u)).
Proof.
  intros u v Hu H. assert (P : forall w, 0 < w -> 0 < exp w - 1) by (intros w Hw; assert (X := exp_increasing 0 w Hw); rewrite exp_0 in X; lra).
  assert (E : forall w, 0 < w -> w * exp (- w) / (1 - exp (- w)) = w / (exp w - 1)). { intros w Hw. rewrite exp_Ropp. assert (Pw := P w Hw). assert (Q := exp_pos w). field. split; [lra|]. lra. }
  rewrite !E by lra. assert (Pu := P u Hu). assert (Pv := P v ltac:(lra)).
  (* (e^u - 1) v <= (e^v - 1) u *)
  assert (K : v * (exp u - 1) <= u * (exp v - 1)).
  { assert (A := exp_ineq1_le (v - u)). assert (B : u * exp u >= exp u - 1). { assert (C := exp_ineq1_le (- u)). rewrite exp_Ropp in C. assert (Q := exp_pos u). assert (X : exp u * (1 + - u) <= exp u * / exp u) by (apply Rmult_le_compat_l; lra). rewrite Rinv_r in X by lra. lra. }
    replace (exp v) with (exp u * exp (v - u)) by (rewrite <- exp_plus; f_equal; ring). assert (Q := exp_pos u). assert (X : u * exp u * (1 + (v - u)) <= u * exp u * exp (v - u)) by (apply Rmult_le_compat_l; [apply Rmult_le_pos; lra|lra]).
    assert (Y : (v - u) * (exp u - 1) <= (v - u) * (u * exp u)) by (apply Rmult_le_compat_l; lra). lra. }
  apply Rmult_le_reg_r with ((exp u - 1) * (exp v - 1)); [apply Rmult_lt_0_compat; auto|]. replace (v / (exp v - 1) * ((exp u - 1) * (exp v - 1))) with (v * (exp u - 1)) by (field; lra). replace (u / (exp u - 1) * ((exp u - 1) * (exp v - 1))) with (u * (exp v - 1)) by (field; lra). auto.
Qed.
Lemma exp_le : forall a b, a <= b -> exp a <= exp b.
Proof. intros a b [H| ->]; [left; apply exp_increasing; auto|lra]. Qed.
Lemma gratio_decreasing : forall a b, a <= b -> gpdf b / gcdf b <= gpdf a / gcdf a.
Proof. intros a b H. rewrite !gpdf_eq. unfold gcdf. apply uexp_decreasing; [apply exp_pos|apply exp_le; auto]. Qed.
Definition gcase (s t a : R) : R := - (gpdf a * (s / gcdf a - (t - s) / (1 - gcdf a))).
Lemma gcdf_range : forall a, 0 < gcdf a < 1.
Proof. intros a. unfold gcdf. assert (C := cloglog_prob a). lra. Qed.
Lemma gd_nll : forall s t a, derivable_pt_lim (binomial_nll gcdf s t) a (gcase s t a).
Proof.
  intros s t a. assert (P := gcdf_range a).
  assert (D1 := derivable_pt_lim_comp gcdf ln a _ _ (gcdf_deriv a) (derivable_pt_lim_ln (gcdf a) ltac:(lra))).
  assert (Dc := derivable_pt_lim_minus (fun _ => 1) gcdf a _ _ (derivable_pt_lim_const 1 a) (gcdf_deriv a)).
  assert (D2 := derivable_pt_lim_comp (fun a => 1 - gcdf a) ln a _ _ Dc (derivable_pt_lim_ln (1 - gcdf a) ltac:(lra))).
  assert (D := derivable_pt_lim_opp _ _ _ (derivable_pt_lim_plus _ _ _ _ _ (derivable_pt_lim_scal _ s _ _ D1) (derivable_pt_lim_scal _ (t - s) _ _ D2))).
  unfold gcase. replace (- (gpdf a * (s / gcdf a - (t - s) / (1 - gcdf a)))) with (- (s * (/ gcdf a * gpdf a) + (t - s) * (/ (1 - gcdf a) * (0 - gpdf a)))) by (field; lra). exact D.
Qed.
Lemma gcase_mono : forall s t a b, 0 <= s <= t -> a <= b -> gcase s t a <= gcase s t b.
Proof.
  intros s t a b H Hab. assert (K1 := gratio_decreasing a b Hab). assert (K2 : gpdf a / (1 - gcdf a) <= gpdf b / (1 - gcdf b)) by (rewrite !gratio_c; apply exp_le; auto). unfold gcase.
  replace (- (gpdf a * (s / gcdf a - (t - s) / (1 - gcdf a)))) with ((t - s) * (gpdf a / (1 - gcdf a)) - s * (gpdf a / gcdf a)) by (unfold Rdiv; ring).
  replace (- (gpdf b * (s / gcdf b - (t - s) / (1 - gcdf b)))) with ((t - s) * (gpdf b / (1 - gcdf b)) - s * (gpdf b / gcdf b)) by (unfold Rdiv; ring).
  assert (X1 := Rmult_le_compat_l s _ _ (proj1 H) K1). assert (X2 := Rmult_le_compat_l (t - s) _ _ ltac:(lra) K2). lra.
Qed.
Lemma gnll_tangent : forall s t a b, 0 <= s <= t -> binomial_nll gcdf s t a + gcase s t a * (b - a) <= binomial_nll gcdf s t b.
Proof. intros s t a b H. apply (tangent_1d (binomial_nll gcdf s t) (gcase s t)); [intros; apply gd_nll|intros; apply gcase_mono; auto]. Qed.
Lemma gval_case : forall s t i a, -5 <= a <= 5 -> val_case (Cloglog s t) i a = binomial_nll gcdf (nth i s 0) (nth i t 0) a.
Proof. intros s t i a H. cbn [val_case]. rewrite clip5_id by auto. unfold binomial_nll, gcdf. replace (1 - (1 - exp (- exp a))) with (exp (- exp a)) by ring. auto. Qed.
Lemma ggrad_case : forall s t i a, -5 <= a <= 5 -> grad_case (Cloglog s t) i a = gcase (nth i s 0) (nth i t 0) a.
Proof. intros s t i a H. cbn [grad_case]. rewrite clip5_id by auto. unfold gcase, gcdf, gpdf. replace (1 - (1 - exp (- exp a))) with (exp (- exp a)) by ring. auto. Qed.
Theorem cloglog_tangent : forall s t n c off cw x y, counts n s t -> length cw = n -> length x = n -> length y = n -> 0 <= c -> nonneg cw -> off_fits n off -> within 5 x -> within 5 y ->
  loss_func (Cloglog s t) c off cw x + dot (loss_grad (Cloglog s t) c off cw x) (vsub y x) <= loss_func (Cloglog s t) c off cw y.
Proof.
  intros s t n c off cw x y (Ls & Lt & B) Lc Lx Ly Hc Hw Ho Bx By. destruct (loss_grad_cases (Cloglog s t) n c off cw x (Logic.conj Ls Lt) Ho Lc Lx) as [Lg Hg].
  rewrite !(loss_func_cases (Cloglog s t) n) by (cbn; auto). rewrite (dot_index n) by (auto; unfold vsub; len). rewrite <- !sum_over_scal, <- sum_over_plus. apply sum_over_le. intros i Hi. rewrite Hg by auto. cbn [predictor]. unfold vsub. nths n.
  assert (Bxi := nth_Forall _ x i Bx ltac:(lia)). assert (Byi := nth_Forall _ y i By ltac:(lia)). cbv beta in Bxi, Byi. assert (T := gnll_tangent (nth i s 0) (nth i t 0) (nth i x 0) (nth i y 0) (B i Hi)).
  rewrite !gval_case, ggrad_case by auto. assert (W := nonneg_nth cw i Hw). assert (CW : 0 <= c * nth i cw 0) by (apply Rmult_le_pos; auto). apply (Rmult_le_compat_l _ _ _ CW) in T. lra.
Qed.
(** The second derivative of one case *)
Lemma gpdf_deriv : forall a, derivable_pt_lim gpdf a ((1 - exp a) * gpdf a).
Proof.
  intros a. assert (D := derivable_pt_lim_comp (fun a => a - exp a) exp a _ _ (derivable_pt_lim_minus (fun a => a) exp a _ _ (derivable_pt_lim_id a) (derivable_pt_lim_exp a)) (derivable_pt_lim_exp (a - exp a))). rewrite Rmult_comm. exact D.
Qed.
Lemma d_gcase : forall s t a, derivable_pt_lim (gcase s t) a
  ((t - s) * ((1 - exp a) * gpdf a / (1 - gcdf a) + gpdf a * gpdf a / ((1 - gcdf a) * (1 - gcdf a))) - s * ((1 - exp a) * gpdf a / gcdf a - gpdf a * gpdf a / (gcdf a * gcdf a))).
Proof.
  intros s t a. assert (P := gcdf_range a).
  assert (Dc := derivable_pt_lim_minus (fun _ => 1) gcdf a _ _ (derivable_pt_lim_const 1 a) (gcdf_deriv a)).
  assert (D1 := derivable_pt_lim_div gpdf (fun a => 1 - gcdf a) a _ _ (gpdf_deriv a) Dc ltac:(lra)).
  assert (D2 := derivable_pt_lim_div gpdf gcdf a _ _ (gpdf_deriv a) (gcdf_deriv a) ltac:(lra)).
  assert (D := derivable_pt_lim_minus _ _ _ _ _ (derivable_pt_lim_scal _ (t - s) _ _ D1) (derivable_pt_lim_scal _ s _ _ D2)).
  apply (derive_ext (fun a => (t - s) * (gpdf a / (1 - gcdf a)) - s * (gpdf a / gcdf a))); [intros b; unfold gcase, Rdiv; ring|].
  match type of D with derivable_pt_lim _ _ ?L => match goal with |- derivable_pt_lim _ _ ?L' => replace L' with L; [exact D|] end end. unfold Rsqr. cbv beta. field. lra.
Qed.
(** What hessian returns is the expected information: the derivative of the gradient when the successes are at their expectation *)
Theorem cloglog_fisher : forall s t n c cw x, length s = n -> length t = n -> length cw = n -> length x = n -> inside 5 x ->
  (forall i, (i < n)%nat -> nth i s 0 = nth i t 0 * (1 - exp (- exp (nth i x 0)))) ->
  exists w, loss_hess (Cloglog s t) c cw x = Ok w /\ is_jacobian n (loss_grad (Cloglog s t) c None cw) x (fun d => vmul w d).
Proof.
  intros s t n c cw x Ls Lt Lc Lx B E. eexists. split; [reflexivity|]. intros d i Ld Hi. rewrite vscale_eq. unfold vmul, vscal. nths n.
  assert (Bi := nth_Forall _ x i B ltac:(lia)). cbv beta in Bi. set (a := nth i x 0) in *. assert (P := gcdf_range a). rewrite clip5_id by lra.
  apply (derive_ext (fun u => c * (nth i cw 0 * grad_case (Cloglog s t) i (a + u * nth i d 0)))).
  { intros u. destruct (loss_grad_cases (Cloglog s t) n c None cw (vadd x (vscal u d)) (Logic.conj Ls Lt) I Lc) as [_ Hg]; [unfold vadd, vscal; len|]. rewrite Hg by auto. cbn [predictor]. unfold vadd, vscal. nths n. auto. }
  set (e := nth i d 0). set (w := nth i cw 0). set (t0 := nth i t 0) in *. fold (gpdf a). change (1 - exp (- exp a)) with (gcdf a).
  replace (c * (gpdf a * gpdf a * t0 * w / (gcdf a * (1 - gcdf a))) * e) with (c * (w * (t0 * (gpdf a * gpdf a / (gcdf a * (1 - gcdf a))) * e))) by (unfold Rdiv; ring).
  apply (derivable_pt_lim_scal (fun u => w * grad_case (Cloglog s t) i (a + u * e))). apply (derivable_pt_lim_scal (fun u => grad_case (Cloglog s t) i (a + u * e))). apply (derive_line (grad_case (Cloglog s t) i)).
  apply (derive_local (gcase (nth i s 0) t0) _ a _ (Rmin (a + 5) (5 - a))); [apply Rmin_pos; lra| |].
  - intros b Hb. assert (L1 := Rmin_l (a + 5) (5 - a)). assert (L2 := Rmin_r (a + 5) (5 - a)). apply Rabs_def2 in Hb. symmetry. apply ggrad_case. lra.
  - assert (D := d_gcase (nth i s 0) t0 a). rewrite (E i Hi) in *. fold t0 a in D |- *. change (1 - exp (- exp a)) with (gcdf a) in *. match type of D with derivable_pt_lim _ _ ?L => match goal with |- derivable_pt_lim _ _ ?L' => replace L' with L; [exact D|] end end. field. lra.
Qed.
(** s = 0 of t = 1: the second derivative is e^a *)
Theorem cloglog_hessian_wrong : exists w, loss_hess (Cloglog [0] [1]) 1 [1] [0] = Ok w /\ ~ is_jacobian 1 (loss_grad (Cloglog [0] [1]) 1 None [1]) [0] (fun d => vmul w d).
Proof.
  eexists. split; [reflexivity|]. intros J. specialize (J [1] 0%nat eq_refl ltac:(lia)). cbv beta in J. rewrite vscale_eq in J. unfold vmul, vscal in J. cbn [map vzip nth] in J. rewrite clip5_id in J by lra.
  assert (D : derivable_pt_lim (fun u => nth 0 (loss_grad (Cloglog [0] [1]) 1 None [1] (vadd [0] (vscal u [1]))) 0) 0 (exp 0 * 1)).
  { apply (derive_ext (fun u => grad_case (Cloglog [0] [1]) 0 (0 + u * 1))).
    { intros u. destruct (loss_grad_cases (Cloglog [0] [1]) 1 1 None [1] (vadd [0] (vscal u [1])) (Logic.conj eq_refl eq_refl) I eq_refl eq_refl) as [_ Hg]. rewrite Hg by lia. cbn [predictor]. cbn -[grad_case]. ring. }
    apply (derive_line (grad_case (Cloglog [0] [1]) 0)). apply (derive_local exp _ 0 _ 5); [lra| |apply derivable_pt_lim_exp]. intros b Hb. apply Rabs_def2 in Hb. rewrite ggrad_case by lra. cbn [nth]. unfold gcase. rewrite <- (gratio_c b). unfold Rdiv. ring. }
  assert (U := uniqueness_limite _ _ _ _ J D). rewrite !exp_0 in U. replace (0 - 1) with (- (1)) in U by ring. assert (P := exp_pos (- (1))). assert (Q := exp_ineq1 1 ltac:(lra)).
  assert (E : exp (- (1)) < / 2) by (rewrite exp_Ropp; apply Rinv_lt_contravar; lra). set (p := exp (- (1))) in *. clearbody p. apply (Rmult_eq_compat_r ((1 - p) * p)) in U. 
  match type of U with ?A = ?B => assert (X : A = p * p) by (field; split; lra) end. rewrite X in U. nra.
Qed.
Theorem cloglog_not_convex : ~ convex_on 1 (loss_func (Cloglog [1] [1]) 1 None [1]).
Proof.
  intros C. specialize (C [-6] [-4] (/ 2) eq_refl eq_refl ltac:(lra)). rewrite !(loss_func_cases (Cloglog [1] [1]) 1) in C by (cbn; auto). unfold sum_over in C. cbn -[val_case clip5] in C. replace (-6 + / 2 * (-4 - -6)) with (-5) in C by lra.
  unfold val_case in C. cbn [nth] in C. rewrite !(clip5_id (-5)), !(clip5_id (-4)) in C by lra. replace (clip5 (-6)) with (-5) in C by (unfold clip5, Rmin, Rmax; repeat destruct (Rle_dec _ _); lra).
  assert (P := gcdf_range (-5)). assert (M : gcdf (-5) < gcdf (-4)). { unfold gcdf. assert (X := exp_increasing (-5) (-4) ltac:(lra)). assert (Y := exp_increasing (- exp (-4)) (- exp (-5)) ltac:(lra)). lra. }
  assert (L := ln_increasing _ _ (proj1 P) M). unfold gcdf in *. lra.
Qed.
