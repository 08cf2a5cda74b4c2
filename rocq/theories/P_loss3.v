(** Points where the gradient or the Hessian is wrong; quadratic_loss. *)
From Coq Require Import Reals List Lra Lia Arith Bool.
From Verif Require Import M_affine Vec Spec SpecConvex M_loss SpecLoss P_quad P_calc P_sep P_loss P_loss2.
Import ListNotations.
Local Open Scope R_scope.

Lemma one_case : forall k a g, fits k 1 -> is_gradient 1 (loss_func k 1 None [1]) [a] g -> derivable_pt_lim (val_case k 0) a (nth 0 g 0).
Proof.
  intros k a g F [Lg G]. specialize (G [1] eq_refl). apply derive_shift. apply (derive_ext (fun t => loss_func k 1 None [1] (vadd [a] (vscal t [1])))).
  - intros t. rewrite (loss_func_cases k 1) by (auto; cbn; auto). unfold sum_over. cbn -[val_case]. replace (nth 0 (predictor k None [a + t * 1]) 0) with (a + t) by (destruct k; cbn; ring). ring.
  - destruct g as [|b [|]]; cbn in Lg; try discriminate. cbn. unfold dot in G. cbn in G. replace b with (b * 1 + 0) by ring. exact G.
Qed.
Lemma one_case_grad : forall k a, fits k 1 -> nth 0 (loss_grad k 1 None [1] [a]) 0 = grad_case k 0 a.
Proof. intros k a F. destruct (loss_grad_cases k 1 1 None [1] [a] F I eq_refl eq_refl) as [_ G]. rewrite G by lia. replace (nth 0 (predictor k None [a]) 0) with a by (destruct k; reflexivity). cbn -[grad_case]. ring. Qed.

Theorem svm_wrong : forall eps, 0 < eps -> eps <> 1 -> exists a, ~ is_gradient 1 (loss_func (HuberSvm [1] eps) 1 None [1]) [a] (loss_grad (HuberSvm [1] eps) 1 None [1] [a]).
Proof.
  intros e He N. exists (1 - 2 * e). intros G. apply one_case in G; [|cbn; auto]. rewrite one_case_grad in G by (cbn; auto). cbn [val_case grad_case nth] in G.
  assert (I : 0 < / e) by (apply Rinv_0_lt_compat; auto).
  assert (P : forall z, z <= 1 - e -> svm_proj e z = 1).
  { intros z Hz. unfold svm_proj, svm_arg. cbv zeta. assert (1 <= (1 - z) / e). { apply Rmult_le_reg_r with e; auto. replace ((1 - z) / e * e) with (1 - z) by (field; lra). lra. }
    repeat match goal with |- context [Rlt_dec ?a ?b] => destruct (Rlt_dec a b) | |- context [Rle_dec ?a ?b] => destruct (Rle_dec a b) end; lra. }
  assert (D : derivable_pt_lim (fun z => (1 - z) * / e - e / 2) (1 - 2 * e) (- / e)).
  { replace (- / e) with ((0 - 1) * / e - 0) by ring. apply (derivable_pt_lim_minus (fun z => (1 - z) * / e)); [|apply derivable_pt_lim_const]. apply (derive_ext (fun z => / e * (1 - z))); [intros; ring|]. rewrite (Rmult_comm (0 - 1)). apply (derivable_pt_lim_scal (fun z => 1 - z)). apply derivable_pt_lim_minus; [apply derivable_pt_lim_const|apply derivable_pt_lim_id]. }
  assert (D' : derivable_pt_lim (fun a => svm_val e ((2 * 1 - 1) * a)) (1 - 2 * e) (- / e)).
  { apply (derive_local (fun z => (1 - z) * / e - e / 2) _ _ _ e He); auto. intros b Hb. apply Rabs_def2 in Hb. unfold svm_val. rewrite P by lra. unfold svm_arg, Rdiv. ring. }
  assert (U := uniqueness_limite _ _ _ _ G D'). rewrite P in U by lra. apply N. assert (E : / e = 1) by lra. rewrite <- (Rinv_inv e), E. apply Rinv_1.
Qed.
Theorem cloglog_wrong : ~ is_gradient 1 (loss_func (Cloglog [0] [1]) 1 None [1]) [6] (loss_grad (Cloglog [0] [1]) 1 None [1] [6]).
Proof.
  intros G. apply one_case in G; [|cbn; auto]. rewrite one_case_grad in G by (cbn; auto). cbn [val_case grad_case nth] in G.
  assert (D : derivable_pt_lim (fun a => - (0 * ln (1 - exp (- exp (clip5 a))) + (1 - 0) * ln (exp (- exp (clip5 a))))) 6 0).
  { apply (derive_local (fun _ => - (0 * ln (1 - exp (- exp 5)) + (1 - 0) * ln (exp (- exp 5)))) _ _ _ 1); [lra| |apply derivable_pt_lim_const]. intros b Hb. apply Rabs_def2 in Hb.
    replace (clip5 b) with 5; auto. unfold clip5, Rmin, Rmax. repeat destruct (Rle_dec _ _); lra. }
  assert (U := uniqueness_limite _ _ _ _ G D). assert (P := exp_pos (6 - exp 6)). assert (Q := Rinv_0_lt_compat _ (exp_pos (- exp (clip5 6)))). unfold Rdiv in U. nra.
Qed.
Theorem cloglog_offset : loss_func (Cloglog [0] [1]) 1 (Some [1]) [1] [0] <> doc_loss (Cloglog [0] [1]) 1 1 [1] (minus [0] (Some [1])).
Proof.
  rewrite (loss_value (Cloglog [0] [1]) 1) by (cbn; auto; repeat constructor; lra). unfold doc_loss, sum_over. cbn. replace (0 - 1) with (-1) by ring. rewrite exp_0. assert (H := exp_increasing (-1) 0 ltac:(lra)). rewrite exp_0 in H. lra.
Qed.
Theorem logistic_jump : forall g, ~ is_gradient 1 (loss_func (Logistic [0] [1]) 1 None [1]) [100] g.
Proof.
  intros g G. apply one_case in G; [|cbn; auto]. cbn [val_case nth] in G. set (l := nth 0 g 0) in *. clearbody l. destruct (G 1 Rlt_0_1) as [d Hd]. set (gap := ln (1 + exp 100) - 100). assert (Pg : 0 < gap) by (unfold gap; apply softplus_gap).
  assert (Pd := cond_pos d). assert (A := Rabs_pos (1 - l)). set (h := Rmin (d / 2) (gap / (Rabs (1 - l) + 2))). assert (Ph : 0 < h) by (apply Rmin_pos; [lra|apply Rdiv_lt_0_compat; lra]).
  assert (L1 : h <= d / 2) by apply Rmin_l. assert (L2 : h <= gap / (Rabs (1 - l) + 2)) by apply Rmin_r.
  specialize (Hd h ltac:(lra)). rewrite (Rabs_pos_eq h) in Hd by lra. specialize (Hd ltac:(lra)). unfold val_case, log_exp1 in Hd. cbn [nth] in Hd. destruct (Rle_dec (100 + h) 100); [lra|]. destruct (Rle_dec 100 100); [|lra].
  replace ((1 * (100 + h) - 0 * (100 + h) - (1 * ln (1 + exp 100) - 0 * 100)) / h - l) with (1 - l - gap / h) in Hd by (unfold gap; field; lra).
  assert (K : Rabs (1 - l) + 2 <= gap / h). { apply Rmult_le_reg_r with h; auto. replace (gap / h * h) with gap by (field; lra). apply Rmult_le_compat_r with (r := Rabs (1 - l) + 2) in L2; [|lra]. replace (gap / (Rabs (1 - l) + 2) * (Rabs (1 - l) + 2)) with gap in L2 by (field; lra). lra. }
  apply Rabs_def2 in Hd. assert (X := Rle_abs (1 - l)). lra.
Qed.
Theorem hessian_offset : exists w, loss_hess (Poisson [0]) 1 [1] [0] = Ok w /\ ~ is_jacobian 1 (loss_grad (Poisson [0]) 1 (Some [1]) [1]) [0] (fun d => vmul w d).
Proof.
  eexists. split; [reflexivity|]. intros J. specialize (J [1] 0%nat eq_refl ltac:(lia)). rewrite vscale_eq in J. cbn in J. rewrite exp_0 in J.
  assert (D : derivable_pt_lim (fun t => nth 0 (vopp (vscale 1 (vmul [1] (vsub [0] (map exp (vsub (vadd [0] (vscal t [1])) [1])))))) 0) 0 (exp (-1) * 1)).
  { apply (derive_ext (fun t => exp (-1 + t * 1))); [|apply derive_line, derivable_pt_lim_exp]. intros t. rewrite vscale_eq. cbn. replace (0 + t * 1 - 1) with (-1 + t * 1) by ring. ring. }
  assert (U := uniqueness_limite _ _ _ _ J D). assert (H := exp_increasing (-1) 0 ltac:(lra)). rewrite exp_0 in H. lra.
Qed.
Theorem hessian_overflow : let k := Logistic [0; 0; 0] [1; 1; 1] in exists w, loss_hess k 1 [1; 1; 1] [101; 0; 0] = Ok w /\ ~ is_jacobian 3 (loss_grad k 1 None [1; 1; 1]) [101; 0; 0] (fun d => vmul w d).
Proof.
  cbv zeta. eexists. split; [reflexivity|]. intros J. specialize (J [0; 1; 0] 1%nat eq_refl ltac:(lia)). cbv beta in J.
  assert (E : logit_exp [101; 0; 0] = [exp 100; exp 100; exp 0]).
  { unfold logit_exp. cbn. destruct (Rlt_dec 100 101); [|lra]. cbn. destruct (Rle_dec 101 100); [lra|]. destruct (Rle_dec 0 100); [|lra]. reflexivity. }
  rewrite vscale_eq in J. rewrite E in J. cbn [map vmul vscal vzip nth] in J.
  assert (D : derivable_pt_lim (fun t => nth 1 (loss_grad (Logistic [0; 0; 0] [1; 1; 1]) 1 None [1; 1; 1] (vadd [101; 0; 0] (vscal t [0; 1; 0]))) 0) 0 (hess_case (Logistic [0; 0; 0] [1; 1; 1]) 1 0 * 1)).
  { apply (derive_ext (fun t => grad_case (Logistic [0; 0; 0] [1; 1; 1]) 1 (0 + t * 1))); [|apply derive_line, d_grad_case; cbn; [auto|lra]]. intros t.
    destruct (loss_grad_cases (Logistic [0; 0; 0] [1; 1; 1]) 3 1 None [1; 1; 1] (vadd [101; 0; 0] (vscal t [0; 1; 0])) (conj eq_refl eq_refl) I eq_refl eq_refl) as [_ G]. rewrite G by lia. cbn -[ratio1]. ring. }
  assert (U := uniqueness_limite _ _ _ _ J D). cbn [hess_case nth] in U. rewrite exp_0 in U. assert (P : 1 < exp 100) by (rewrite <- exp_0; apply exp_increasing; lra). set (q := exp 100) in *. clearbody q.
  assert (V : q / ((1 + q) * (1 + q)) = / 4) by lra. assert (W : q = / 4 * ((1 + q) * (1 + q))) by (rewrite <- V; field; lra). nra.
Qed.
(** ** quadratic_loss *)
Lemma id_symmetric : forall n, symmetric_map n (fun x => x).
Proof. intros n. repeat split; auto. Qed.
Theorem quad_gradient : forall n Q c off x, (match Q with Some Q => symmetric_map n Q | None => True end) -> off_fits n off -> length x = n ->
  is_gradient n (quad_func Q c off) x (quad_grad Q c off x).
Proof.
  intros n Q c off x S O Lx.
  assert (K : forall Q', symmetric_map n Q' -> is_gradient n (fun z => c * dot (minus z off) (Q' (minus z off)) / 2) x (vscal c (Q' (minus x off)))).
  { intros Q' (L & A & M & Y). apply (gradient_minus n (fun z => c * dot z (Q' z) / 2)); auto. assert (Lm := minus_length x off n Lx O). set (z := minus x off) in *. split; [rewrite vscal_length; auto|]. intros d Ld.
    apply (derive_ext (fun t => (t * dot (vscal c (Q' z)) d + t * t * (c * dot d (Q' d) / 2)) + c * dot z (Q' z) / 2)).
    - intros t. assert (Lt : length (vscal t d) = n) by (rewrite vscal_length; auto). rewrite A, M by auto. assert (Lz := L z Lm). assert (Lq := L d Ld). 
      rewrite dot_add_l by (rewrite ?vadd_length, ?vscal_length by (rewrite ?vscal_length; lia); lia). rewrite !dot_add_r by (rewrite ?vscal_length; lia). rewrite !dot_scal_l, !dot_scal_r. rewrite <- (Y z d) by auto. rewrite (dot_comm d (Q' z)). field.
    - assert (D := derive_quad (dot (vscal c (Q' z)) d) (c * dot d (Q' d) / 2) 0). intros e He. destruct (D e He) as [dl Hd]. exists dl. intros h Hh Hlt. specialize (Hd h Hh Hlt).
      replace (dot (vscal c (Q' z)) d + 2 * 0 * (c * dot d (Q' d) / 2)) with (dot (vscal c (Q' z)) d) in Hd by ring. match goal with |- Rabs ?a < _ => match type of Hd with Rabs ?b < _ => replace a with b; [exact Hd|] end end. field. auto. }
  destruct Q as [Q|]; unfold quad_grad; rewrite vscale_eq; unfold quad_func; fold (minus x off).
  - apply (gradient_ext n (fun z => c * dot (minus z off) (Q (minus z off)) / 2)); auto. intros z Lz. rewrite scale_eq. reflexivity.
  - apply (gradient_ext n (fun z => c * dot (minus z off) (minus z off) / 2)); auto; [|apply (K (fun z => z)), id_symmetric]. intros z Lz. rewrite scale_eq, norm_sq. reflexivity.
Qed.
Theorem quad_asymmetric : let Q := fun x : vec => [nth 1 x 0; 0] in ~ is_gradient 2 (quad_func (Some Q) 1 None) [1; 0] (quad_grad (Some Q) 1 None [1; 0]).
Proof.
  cbv zeta. intros [_ G]. specialize (G [0; 1] eq_refl). unfold quad_grad in G. rewrite vscale_eq in G. cbn in G.
  assert (D : derivable_pt_lim (fun t => quad_func (Some (fun x : vec => [nth 1 x 0; 0])) 1 None (vadd [1; 0] (vscal t [0; 1]))) 0 (1 / 2 * 1)).
  { apply (derive_ext (fun t => (fun a => a / 2) (0 + t * 1))). - intros t. unfold quad_func. rewrite scale_eq. cbn. unfold dot. cbn. field. - apply (derive_line (fun a => a / 2)). apply (derive_ext (fun a => 1 / 2 * a)); [intros; field|]. assert (D := derivable_pt_lim_scal (fun a => a) (1 / 2) 0 1 (derivable_pt_lim_id 0)); rewrite Rmult_1_r in D; exact D. }
  assert (U := uniqueness_limite _ _ _ _ G D). unfold dot in U. cbn in U. lra.
Qed.
