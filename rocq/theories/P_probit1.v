(** The probit loss: value, gradient, convexity, second derivative. *)
From Coq Require Import Reals List Lra Lia Arith Bool.
From Verif Require Import Vec Spec SpecConvex M_quad M_buffer M_loss SpecLoss M_probit SpecNormal SpecProbit P_quad P_calc P_sep P_loss P_loss2 P_normal.
Import ListNotations.
Local Open Scope R_scope.

Definition pval (cdf : R -> R) (s t a : R) : R := - (s * ln (prob cdf a) + (t - s) * ln (prob_c cdf a)).
Definition pgrad (cdf pdf : R -> R) (s t a : R) : R := - (pdf a * (s / prob cdf a - (t - s) / prob_c cdf a)).
Lemma probit_func_cases : forall cdf s t n c cw x, length s = n -> length t = n -> length cw = n -> length x = n ->
  probit_func cdf s t c cw x = c * sum_over n (fun i => nth i cw 0 * pval cdf (nth i s 0) (nth i t 0) (nth i x 0)).
Proof.
  intros cdf s t n c cw x Ls Lt Lc Lx. unfold probit_func. rewrite scale_eq. unfold vmul, vsub, vadd. rewrite !(vsum_index n) by len. rewrite <- Ropp_mult_distr_r_reverse. f_equal.
  match goal with |- - ?A = _ => replace (- A) with ((-1) * A) by ring end. rewrite <- sum_over_scal. apply sum_over_ext. intros i Hi. nths n. unfold pval. ring.
Qed.
Lemma probit_grad_cases : forall cdf pdf s t n c cw x, length s = n -> length t = n -> length cw = n -> length x = n ->
  length (probit_grad cdf pdf s t c cw x) = n /\ forall i, (i < n)%nat -> nth i (probit_grad cdf pdf s t c cw x) 0 = c * (nth i cw 0 * pgrad cdf pdf (nth i s 0) (nth i t 0) (nth i x 0)).
Proof.
  intros cdf pdf s t n c cw x Ls Lt Lc Lx. unfold probit_grad. rewrite vscale_eq. unfold vopp, vscal, vmul, vsub. split; [len|]. intros i Hi. nths n. unfold pgrad. ring.
Qed.
Lemma probit_hess_cases : forall cdf pdf t n c cw x, length t = n -> length cw = n -> length x = n ->
  length (probit_hess cdf pdf t c cw x) = n /\ forall i, (i < n)%nat -> nth i (probit_hess cdf pdf t c cw x) 0 = c * (nth i cw 0 * (nth i t 0 * (pdf (nth i x 0) * pdf (nth i x 0) / (cdf (nth i x 0) * (1 - cdf (nth i x 0)))))).
Proof.
  intros cdf pdf t n c cw x Lt Lc Lx. unfold probit_hess. rewrite vscale_eq. unfold vscal, vmul. split; [len|]. intros i Hi. nths n. unfold Rdiv. ring.
Qed.
Lemma prob_in : forall cdf a, -20 <= a -> prob cdf a = cdf a.
Proof. intros cdf a H. unfold prob. destruct (Rlt_dec a (-20)); [lra|auto]. Qed.
Lemma prob_c_in : forall cdf a, a <= 20 -> prob_c cdf a = 1 - cdf a.
Proof. intros cdf a H. unfold prob_c. destruct (Rlt_dec 20 a); [lra|auto]. Qed.

Theorem probit_modes : forall cdf pdf s t c cw x, probit_value cdf pdf s t c cw x EvFunc = Ok (VFunc (probit_func cdf s t c cw x)) /\ probit_value cdf pdf s t c cw x EvGrad = Ok (VGrad (probit_grad cdf pdf s t c cw x)) /\
  probit_value cdf pdf s t c cw x EvBoth = Ok (VBoth (probit_func cdf s t c cw x) (probit_grad cdf pdf s t c cw x)) /\ probit_value cdf pdf s t c cw x EvOther = Err ValueError.
Proof. intros. unfold probit_value. auto. Qed.

Section Probit.
Variables (cdf pdf : R -> R) (N : is_normal cdf pdf).
Theorem probit_value_doc : forall s t n c cw x, length s = n -> length t = n -> length cw = n -> length x = n -> within 20 x ->
  probit_func cdf s t c cw x = doc_binomial cdf s t n c cw x.
Proof.
  intros s t n c cw x Ls Lt Lc Lx B. rewrite (probit_func_cases cdf s t n) by auto. unfold doc_binomial. f_equal. apply sum_over_ext. intros i Hi. f_equal.
  assert (Bi := nth_Forall _ x i B ltac:(lia)). cbv beta in Bi. unfold pval, binomial_nll. rewrite prob_in, prob_c_in by lra. auto.
Qed.
Theorem probit_value_wrong : probit_func cdf [1] [1] 1 [1] [-21] < doc_binomial cdf [1] [1] 1 1 [1] [-21].
Proof.
  rewrite (probit_func_cases cdf [1] [1] 1) by auto. unfold doc_binomial, sum_over. cbn [seq map vsum nth fold_right]. unfold pval, binomial_nll, prob. destruct (Rlt_dec (-21) (-20)); [|lra].
  assert (P := cdf_pos cdf pdf N (-21)). assert (M := cdf_mono cdf pdf N (-21) (-20) ltac:(lra)). assert (L := ln_increasing _ _ P M). cbn. lra.
Qed.
(** One case on the whole line *)
Definition dcase (s t a : R) : R := - (pdf a * (s / cdf a - (t - s) / (1 - cdf a))).
Lemma d_nll : forall s t a, derivable_pt_lim (binomial_nll cdf s t) a (dcase s t a).
Proof.
  intros s t a. assert (P := cdf_pos cdf pdf N a). assert (Q := cdf_lt1 cdf pdf N a).
  assert (D1 := derivable_pt_lim_comp cdf ln a _ _ (nm_density _ _ N a) (derivable_pt_lim_ln (cdf a) P)).
  assert (Dc := derivable_pt_lim_minus (fun _ => 1) cdf a _ _ (derivable_pt_lim_const 1 a) (nm_density _ _ N a)).
  assert (D2 := derivable_pt_lim_comp (fun a => 1 - cdf a) ln a _ _ Dc (derivable_pt_lim_ln (1 - cdf a) ltac:(lra))).
  assert (D := derivable_pt_lim_opp _ _ _ (derivable_pt_lim_plus _ _ _ _ _ (derivable_pt_lim_scal _ s _ _ D1) (derivable_pt_lim_scal _ (t - s) _ _ D2))).
  unfold dcase. replace (- (pdf a * (s / cdf a - (t - s) / (1 - cdf a)))) with (- (s * (/ cdf a * pdf a) + (t - s) * (/ (1 - cdf a) * (0 - pdf a)))) by (field; lra). exact D.
Qed.
Lemma dcase_mono : forall s t a b, 0 <= s <= t -> a <= b -> dcase s t a <= dcase s t b.
Proof.
  intros s t a b H Hab. assert (K1 := ratio_decreasing cdf pdf N a b Hab). assert (K2 := ratio_c_increasing cdf pdf N a b Hab). unfold dcase.
  replace (- (pdf a * (s / cdf a - (t - s) / (1 - cdf a)))) with ((t - s) * (pdf a / (1 - cdf a)) - s * (pdf a / cdf a)) by (unfold Rdiv; ring).
  replace (- (pdf b * (s / cdf b - (t - s) / (1 - cdf b)))) with ((t - s) * (pdf b / (1 - cdf b)) - s * (pdf b / cdf b)) by (unfold Rdiv; ring). 
  assert (X1 := Rmult_le_compat_l s _ _ (proj1 H) K1). assert (X2 := Rmult_le_compat_l (t - s) _ _ ltac:(lra) K2). lra.
Qed.
Lemma nll_tangent : forall s t a b, 0 <= s <= t -> binomial_nll cdf s t a + dcase s t a * (b - a) <= binomial_nll cdf s t b.
Proof. intros s t a b H. apply (tangent_1d (binomial_nll cdf s t) (dcase s t)); [intros; apply d_nll|intros; apply dcase_mono; auto]. Qed.

Theorem probit_gradient : forall s t n c cw x, length s = n -> length t = n -> length cw = n -> length x = n -> inside 20 x ->
  is_gradient n (probit_func cdf s t c cw) x (probit_grad cdf pdf s t c cw x).
Proof.
  intros s t n c cw x Ls Lt Lc Lx B. destruct (probit_grad_cases cdf pdf s t n c cw x Ls Lt Lc Lx) as [Lg Hg].
  apply (gradient_ext n (fun z => sum_over n (fun i => c * (nth i cw 0 * pval cdf (nth i s 0) (nth i t 0) (nth i z 0))))); auto.
  - intros z Lz. rewrite sum_over_scal. symmetry. apply probit_func_cases; auto.
  - apply (sep_gradient n (fun i a => c * (nth i cw 0 * pval cdf (nth i s 0) (nth i t 0) a))); auto. intros i Hi. rewrite Hg by auto.
    apply (derivable_pt_lim_scal (fun a => nth i cw 0 * pval cdf (nth i s 0) (nth i t 0) a)). apply (derivable_pt_lim_scal (pval cdf (nth i s 0) (nth i t 0))).
    assert (Bi := nth_Forall _ x i B ltac:(lia)). cbv beta in Bi. set (a := nth i x 0) in *.
    apply (derive_local (binomial_nll cdf (nth i s 0) (nth i t 0)) _ a _ (Rmin (a + 20) (20 - a))); [apply Rmin_pos; lra| |].
    + intros b Hb. assert (L1 := Rmin_l (a + 20) (20 - a)). assert (L2 := Rmin_r (a + 20) (20 - a)). apply Rabs_def2 in Hb. unfold pval, binomial_nll. rewrite prob_in, prob_c_in by lra. auto.
    + unfold pgrad. rewrite prob_in, prob_c_in by lra. apply d_nll.
Qed.
Lemma one_probit : forall s t a g, is_gradient 1 (probit_func cdf [s] [t] 1 [1]) [a] g -> derivable_pt_lim (pval cdf s t) a (nth 0 g 0).
Proof.
  intros s t a g [Lg G]. specialize (G [1] eq_refl). apply derive_shift. apply (derive_ext (fun u => probit_func cdf [s] [t] 1 [1] (vadd [a] (vscal u [1])))).
  - intros u. rewrite (probit_func_cases cdf [s] [t] 1) by auto. unfold sum_over. cbn -[pval]. replace (a + u * 1) with (a + u) by ring. ring.
  - destruct g as [|b [|]]; cbn in Lg; try discriminate. cbn. unfold dot in G. cbn in G. replace b with (b * 1 + 0) by ring. exact G.
Qed.
Theorem probit_gradient_wrong : ~ is_gradient 1 (probit_func cdf [1] [1] 1 [1]) [-21] (probit_grad cdf pdf [1] [1] 1 [1] [-21]).
Proof.
  intros G. apply one_probit in G. destruct (probit_grad_cases cdf pdf [1] [1] 1 1 [1] [-21] eq_refl eq_refl eq_refl eq_refl) as [_ Hg]. rewrite Hg in G by lia. cbn [nth] in G.
  assert (D : derivable_pt_lim (pval cdf 1 1) (-21) 0).
  { apply (derive_local (fun _ => - ln (cdf (-20))) _ _ _ 1); [lra| |apply derivable_pt_lim_const]. intros b Hb. apply Rabs_def2 in Hb. unfold pval, prob. destruct (Rlt_dec b (-20)); [|lra]. ring. }
  assert (U := uniqueness_limite _ _ _ _ G D). unfold pgrad, prob in U. destruct (Rlt_dec (-21) (-20)); [|lra]. assert (P := pdf_pos cdf pdf N (-21)). assert (Q := Rinv_0_lt_compat _ (cdf_pos cdf pdf N (-20))). unfold Rdiv in U. nra.
Qed.
(** ** Convexity *)
Theorem probit_tangent : forall s t n c cw x y, counts n s t -> length cw = n -> length x = n -> length y = n -> 0 <= c -> nonneg cw -> within 20 x -> within 20 y ->
  probit_func cdf s t c cw x + dot (probit_grad cdf pdf s t c cw x) (vsub y x) <= probit_func cdf s t c cw y.
Proof.
  intros s t n c cw x y (Ls & Lt & B) Lc Lx Ly Hc Hw Bx By. destruct (probit_grad_cases cdf pdf s t n c cw x Ls Lt Lc Lx) as [Lg Hg].
  rewrite !(probit_func_cases cdf s t n) by auto. rewrite (dot_index n) by (auto; unfold vsub; len). rewrite <- !sum_over_scal, <- sum_over_plus. apply sum_over_le. intros i Hi. rewrite Hg by auto. unfold vsub. nths n.
  assert (Bxi := nth_Forall _ x i Bx ltac:(lia)). assert (Byi := nth_Forall _ y i By ltac:(lia)). cbv beta in Bxi, Byi. assert (T := nll_tangent (nth i s 0) (nth i t 0) (nth i x 0) (nth i y 0) (B i Hi)).
  unfold pval, pgrad. rewrite !prob_in, !prob_c_in by lra. unfold binomial_nll, dcase in T. assert (W := nonneg_nth cw i Hw). assert (CW : 0 <= c * nth i cw 0) by (apply Rmult_le_pos; auto).
  apply (Rmult_le_compat_l _ _ _ CW) in T. lra.
Qed.
Lemma within_between : forall n x y u, length x = n -> length y = n -> 0 <= u <= 1 -> within 20 x -> within 20 y -> within 20 (between x y u).
Proof.
  intros n x y u Lx Ly Hu Bx By. unfold within in *. apply Forall_forall. intros a Ha. destruct (In_nth _ _ 0 Ha) as (i & Hi & <-). unfold between, vadd, vscal, vsub in *. rewrite (zl _ _ _ n) in Hi by len.
  nths n. assert (Bxi := nth_Forall _ x i Bx ltac:(lia)). assert (Byi := nth_Forall _ y i By ltac:(lia)). cbv beta in *. nra.
Qed.
Theorem probit_convex : forall s t n c cw x y u, counts n s t -> length cw = n -> length x = n -> length y = n -> 0 <= c -> nonneg cw -> within 20 x -> within 20 y -> 0 <= u <= 1 ->
  probit_func cdf s t c cw (between x y u) <= (1 - u) * probit_func cdf s t c cw x + u * probit_func cdf s t c cw y.
Proof.
  intros s t n c cw x y u C Lc Lx Ly Hc Hw Bx By Hu. destruct C as (Ls & Lt & B). 
  assert (Lz : length (between x y u) = n) by (unfold between, vadd, vscal, vsub; len). assert (Bz := within_between n x y u Lx Ly Hu Bx By).
  rewrite !(probit_value_doc s t n) by auto. unfold doc_binomial.
  match goal with |- c * ?A <= (1 - u) * (c * ?P) + u * (c * ?Q) => replace ((1 - u) * (c * P) + u * (c * Q)) with (c * ((1 - u) * P + u * Q)) by ring end. apply Rmult_le_compat_l; auto.
  rewrite <- !sum_over_scal, <- sum_over_plus. apply sum_over_le. intros i Hi. assert (W := nonneg_nth cw i Hw). assert (Ez : nth i (between x y u) 0 = nth i x 0 + u * (nth i y 0 - nth i x 0)) by (unfold between, vadd, vscal, vsub; nths n; ring).
  assert (T1 := nll_tangent (nth i s 0) (nth i t 0) (nth i (between x y u) 0) (nth i x 0) (B i Hi)). assert (T2 := nll_tangent (nth i s 0) (nth i t 0) (nth i (between x y u) 0) (nth i y 0) (B i Hi)).
  set (z := nth i (between x y u) 0) in *. set (D := dcase (nth i s 0) (nth i t 0) z) in *. set (f := binomial_nll cdf (nth i s 0) (nth i t 0)) in *. set (a := nth i x 0) in *. set (b := nth i y 0) in *. clearbody D f z.
  assert (T : f z <= (1 - u) * f a + u * f b). { assert (X1 := Rmult_le_compat_l (1 - u) _ _ ltac:(lra) T1). assert (X2 := Rmult_le_compat_l u _ _ ltac:(lra) T2). subst z. lra. }
  apply (Rmult_le_compat_l _ _ _ W) in T. lra.
Qed.
Theorem probit_not_convex : ~ convex_on 1 (probit_func cdf [1] [1] 1 [1]).
Proof.
  intros C. specialize (C [-21] [-19] (/ 2) eq_refl eq_refl ltac:(lra)). rewrite !(probit_func_cases cdf [1] [1] 1) in C by auto. unfold sum_over in C. cbn -[pval] in C. replace (-21 + / 2 * (-19 - -21)) with (-20) in C by lra.
  unfold pval, prob in C. destruct (Rlt_dec (-21) (-20)); [|lra]. destruct (Rlt_dec (-20) (-20)); [lra|]. destruct (Rlt_dec (-19) (-20)); [lra|].
  assert (P := cdf_pos cdf pdf N (-20)). assert (M := cdf_mono cdf pdf N (-20) (-19) ltac:(lra)). assert (L := ln_increasing _ _ P M). lra.
Qed.
(** ** The Hessian *)
Lemma d_dcase : forall s t a, derivable_pt_lim (dcase s t) a
  ((t - s) * (- a * pdf a / (1 - cdf a) + pdf a * pdf a / ((1 - cdf a) * (1 - cdf a))) - s * (- a * pdf a / cdf a - pdf a * pdf a / (cdf a * cdf a))).
Proof.
  intros s t a. assert (P := cdf_pos cdf pdf N a). assert (Q := cdf_lt1 cdf pdf N a).
  assert (Dc := derivable_pt_lim_minus (fun _ => 1) cdf a _ _ (derivable_pt_lim_const 1 a) (nm_density _ _ N a)).
  assert (D1 := derivable_pt_lim_div pdf (fun a => 1 - cdf a) a _ _ (pdf_deriv cdf pdf N a) Dc ltac:(lra)).
  assert (D2 := derivable_pt_lim_div pdf cdf a _ _ (pdf_deriv cdf pdf N a) (nm_density _ _ N a) ltac:(lra)).
  assert (D := derivable_pt_lim_minus _ _ _ _ _ (derivable_pt_lim_scal _ (t - s) _ _ D1) (derivable_pt_lim_scal _ s _ _ D2)).
  apply (derive_ext (fun a => (t - s) * (pdf a / (1 - cdf a)) - s * (pdf a / cdf a))); [intros b; unfold dcase, Rdiv; ring|].
  match type of D with derivable_pt_lim _ _ ?L => match goal with |- derivable_pt_lim _ _ ?L' => replace L' with L; [exact D|] end end. unfold Rsqr. cbv beta. field. lra.
Qed.
Lemma pgrad_dcase : forall s t a, -20 <= a <= 20 -> pgrad cdf pdf s t a = dcase s t a.
Proof. intros s t a H. unfold pgrad, dcase. rewrite prob_in, prob_c_in by lra. auto. Qed.
Theorem probit_fisher : forall s t n c cw x, length s = n -> length t = n -> length cw = n -> length x = n -> inside 20 x ->
  (forall i, (i < n)%nat -> nth i s 0 = nth i t 0 * cdf (nth i x 0)) -> is_jacobian n (probit_grad cdf pdf s t c cw) x (fun d => vmul (probit_hess cdf pdf t c cw x) d).
Proof.
  intros s t n c cw x Ls Lt Lc Lx B E d i Ld Hi. destruct (probit_hess_cases cdf pdf t n c cw x Lt Lc Lx) as [Lh Hh]. unfold vmul. rewrite (nth_zip0 _ _ _ n) by auto. rewrite Hh by auto.
  assert (Bi := nth_Forall _ x i B ltac:(lia)). cbv beta in Bi. set (a := nth i x 0) in *. assert (P := cdf_pos cdf pdf N a). assert (Q := cdf_lt1 cdf pdf N a).
  apply (derive_ext (fun u => c * (nth i cw 0 * pgrad cdf pdf (nth i s 0) (nth i t 0) (a + u * nth i d 0)))).
  { intros u. destruct (probit_grad_cases cdf pdf s t n c cw (vadd x (vscal u d)) Ls Lt Lc) as [_ Hg]; [unfold vadd, vscal; len|]. rewrite Hg by auto. unfold vadd, vscal. nths n. auto. }
  set (e := nth i d 0). set (w := nth i cw 0). set (t0 := nth i t 0) in *.
  replace (c * (w * (t0 * (pdf a * pdf a / (cdf a * (1 - cdf a))))) * e) with (c * (w * (t0 * (pdf a * pdf a / (cdf a * (1 - cdf a))) * e))) by ring.
  apply (derivable_pt_lim_scal (fun u => w * pgrad cdf pdf (nth i s 0) t0 (a + u * e))). apply (derivable_pt_lim_scal (fun u => pgrad cdf pdf (nth i s 0) t0 (a + u * e))). apply (derive_line (pgrad cdf pdf (nth i s 0) t0)).
  apply (derive_local (dcase (nth i s 0) t0) _ a _ (Rmin (a + 20) (20 - a))); [apply Rmin_pos; lra| |].
  - intros b Hb. assert (L1 := Rmin_l (a + 20) (20 - a)). assert (L2 := Rmin_r (a + 20) (20 - a)). apply Rabs_def2 in Hb. rewrite pgrad_dcase by lra. auto.
  - assert (D := d_dcase (nth i s 0) t0 a). rewrite (E i Hi) in *. fold t0 a in D |- *. match type of D with derivable_pt_lim _ _ ?L => match goal with |- derivable_pt_lim _ _ ?L' => replace L' with L; [exact D|] end end. field. lra.
Qed.
Theorem probit_hessian_wrong : ~ forall a, -20 < a < 20 -> is_jacobian 1 (probit_grad cdf pdf [1] [1] 1 [1]) [a] (fun d => vmul (probit_hess cdf pdf [1] 1 [1] [a]) d).
Proof.
  intros H. assert (Ha : forall a, -20 < a < 20 -> a * (cdf a * (1 - cdf a)) = pdf a * (2 * cdf a - 1)).
  { intros a Ba. assert (P := cdf_pos cdf pdf N a). assert (Q := cdf_lt1 cdf pdf N a). assert (R := pdf_pos cdf pdf N a). specialize (H a Ba [1] 0%nat eq_refl ltac:(lia)). cbv beta in H.
    assert (D : derivable_pt_lim (fun u => nth 0 (probit_grad cdf pdf [1] [1] 1 [1] (vadd [a] (vscal u [1]))) 0) 0 (- (- a * pdf a / cdf a - pdf a * pdf a / (cdf a * cdf a)) * 1)).
    { apply (derive_ext (fun u => pgrad cdf pdf 1 1 (a + u * 1))).
      { intros u. destruct (probit_grad_cases cdf pdf [1] [1] 1 1 [1] (vadd [a] (vscal u [1])) eq_refl eq_refl eq_refl eq_refl) as [_ Hg]. rewrite Hg by lia. cbn -[pgrad]. ring. }
      apply (derive_line (pgrad cdf pdf 1 1)). apply (derive_local (dcase 1 1) _ a _ (Rmin (a + 20) (20 - a))); [apply Rmin_pos; lra| |].
      - intros b Hb. assert (L1 := Rmin_l (a + 20) (20 - a)). assert (L2 := Rmin_r (a + 20) (20 - a)). apply Rabs_def2 in Hb. rewrite pgrad_dcase by lra. auto.
      - assert (D := d_dcase 1 1 a). match type of D with derivable_pt_lim _ _ ?L => match goal with |- derivable_pt_lim _ _ ?L' => replace L' with L; [exact D|] end end. field. lra. }
    assert (U := uniqueness_limite _ _ _ _ H D). destruct (probit_hess_cases cdf pdf [1] 1 1 [1] [a] eq_refl eq_refl eq_refl) as [Lh Hh]. unfold vmul in U. rewrite (nth_zip0 _ _ _ 1) in U by auto. rewrite Hh in U by lia. cbn [nth] in U.
    apply Rmult_eq_reg_l with (pdf a * / (cdf a * cdf a * (1 - cdf a))); [|apply Rgt_not_eq; apply Rmult_lt_0_compat; [auto|apply Rinv_0_lt_compat; apply Rmult_lt_0_compat; [apply Rmult_lt_0_compat; auto|lra]]].
    transitivity (pdf a * (a / cdf a)); [field; lra|]. transitivity (pdf a * pdf a / (cdf a * (1 - cdf a)) - pdf a * pdf a / (cdf a * cdf a)); [|field; lra].
    assert (E2 : 1 * (1 * (1 * (pdf a * pdf a / (cdf a * (1 - cdf a))))) * 1 = pdf a * pdf a / (cdf a * (1 - cdf a))) by ring. rewrite E2 in U. rewrite U. field. lra. }
  (* derivatives of functions that agree on the interval agree there *)
  assert (K : forall F G f g a, (forall a, -20 < a < 20 -> F a = G a) -> -20 < a < 20 -> derivable_pt_lim F a f -> derivable_pt_lim G a g -> f = g).
  { intros F G f g a E Ba DF DG. apply (uniqueness_limite G a); auto. apply (derive_local F _ a _ (Rmin (a + 20) (20 - a))); auto; [apply Rmin_pos; lra|]. intros b Hb. assert (L1 := Rmin_l (a + 20) (20 - a)). assert (L2 := Rmin_r (a + 20) (20 - a)). apply Rabs_def2 in Hb. apply E. lra. }
  assert (Dc : forall a, derivable_pt_lim (fun a => 1 - cdf a) a (0 - pdf a)) by (intros a; apply (derivable_pt_lim_minus (fun _ => 1) cdf); [apply derivable_pt_lim_const|apply N]).
  assert (Dv : forall a, derivable_pt_lim (fun a => cdf a * (1 - cdf a)) a (pdf a * (1 - cdf a) + cdf a * (0 - pdf a))) by (intros a; apply (derivable_pt_lim_mult cdf (fun a => 1 - cdf a)); [apply N|auto]).
  assert (Dm : forall a, derivable_pt_lim (fun a => 2 * cdf a - 1) a (2 * pdf a - 0)) by (intros a; apply (derivable_pt_lim_minus (fun a => 2 * cdf a) (fun _ => 1)); [apply (derivable_pt_lim_scal cdf), N|apply derivable_pt_lim_const]).
  assert (Dp := pdf_deriv cdf pdf N).
  assert (Hb : forall a, -20 < a < 20 -> cdf a * (1 - cdf a) = 2 * (pdf a * pdf a)).
  { intros a Ba. assert (E := K _ _ _ _ a Ha Ba (derivable_pt_lim_mult (fun a => a) (fun a => cdf a * (1 - cdf a)) a _ _ (derivable_pt_lim_id a) (Dv a)) (derivable_pt_lim_mult pdf (fun a => 2 * cdf a - 1) a _ _ (Dp a) (Dm a))). cbv beta in E. lra. }
  assert (Hc : forall a, -20 < a < 20 -> 1 - 2 * cdf a = -4 * (a * pdf a)).
  { intros a Ba. assert (E := K _ _ _ _ a Hb Ba (Dv a) (derivable_pt_lim_scal (fun a => pdf a * pdf a) 2 a _ (derivable_pt_lim_mult pdf pdf a _ _ (Dp a) (Dp a)))). cbv beta in E. assert (R := pdf_pos cdf pdf N a).
    apply Rmult_eq_reg_l with (pdf a); [|lra]. lra. }
  assert (E := K _ _ _ _ 0 Hc ltac:(lra) (derivable_pt_lim_minus (fun _ => 1) (fun a => 2 * cdf a) 0 _ _ (derivable_pt_lim_const 1 0) (derivable_pt_lim_scal cdf 2 0 _ (nm_density _ _ N 0))) (derivable_pt_lim_scal (fun a => a * pdf a) (-4) 0 _ (derivable_pt_lim_mult (fun a => a) pdf 0 _ _ (derivable_pt_lim_id 0) (Dp 0)))).
  assert (R := pdf_pos cdf pdf N 0). lra.
Qed.
End Probit.
