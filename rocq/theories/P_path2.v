(** The elastic net along a path; lambda_max and the default sequence. *)
From Coq Require Import Reals List Lra Lia Arith Bool.
From Verif Require Import M_affine SpecAffine P_affine P_affine2 M_loss SpecLoss SpecSmooth P_smooth Vec Spec SpecConvex M_quad M_prox M_semi M_weighted P_quad P_calc P_sep P_feas M_problem M_cv SpecCv P_cv M_path SpecPath P_path.
Import ListNotations.
Local Open Scope R_scope.

(** ** the smooth part and its gradient *)
Definition ridge (w : vec) (lam : R) (j : nat) : R := if Req_EM_T (nth j w 0) 0 then 1 else lam.
Definition diag_form (n : nat) (q : nat -> R) (v : vec) : R := sum_over n (fun j => q j * (nth j v 0 * nth j v 0)).
Lemma line_nth : forall n (x d : vec) t i, length x = n -> length d = n -> (i < n)%nat -> nth i (vadd x (vscal t d)) 0 = nth i x 0 + t * nth i d 0.
Proof.
  intros n x d t i Lx Ld Hi. unfold vadd. rewrite (nth_zip0 _ _ _ n); auto; [|unfold vscal; rewrite map_length; auto]. f_equal. unfold vscal. rewrite (nth_indep _ 0 (t * 0)) by (rewrite map_length; lia). apply (map_nth (Rmult t)).
Qed.
Lemma diag_line : forall n q (x d : vec) t, length x = n -> length d = n ->
  diag_form n q (vadd x (vscal t d)) = diag_form n q x + (t * (2 * sum_over n (fun j => q j * nth j x 0 * nth j d 0)) + t * t * diag_form n q d).
Proof.
  intros n q x d t Lx Ld. unfold diag_form. rewrite <- !sum_over_scal, <- !sum_over_plus. apply sum_over_ext. intros j Hj. rewrite (line_nth n) by auto. ring.
Qed.
Lemma diag_gradient : forall n q (x : vec) c, length x = n -> is_gradient n (fun v => c / 2 * diag_form n q v) x (map (fun j => c * (q j * nth j x 0)) (seq 0 n)).
Proof.
  intros n q x c Lx. split; [rewrite map_length, seq_length; auto|]. intros d Ld.
  apply derive_ext with (F := fun t => c / 2 * diag_form n q x + (t * (c * sum_over n (fun j => q j * nth j x 0 * nth j d 0)) + t * t * (c / 2 * diag_form n q d))); [intros t; rewrite (diag_line n) by auto; field|].
  assert (D := derive_quad (c * sum_over n (fun j => q j * nth j x 0 * nth j d 0)) (c / 2 * diag_form n q d) 0).
  assert (D' := derivable_pt_lim_plus _ _ 0 _ _ (derivable_pt_lim_const (c / 2 * diag_form n q x) 0) D). cbn in D'. match goal with |- derivable_pt_lim _ _ ?r => replace r with (0 + (c * sum_over n (fun j => q j * nth j x 0 * nth j d 0) + 2 * 0 * (c / 2 * diag_form n q d))) end; [exact D'|].
  rewrite (dot_index n) by (auto; rewrite map_length, seq_length; auto). rewrite Rplus_0_l, Rmult_0_r, Rmult_0_l, Rplus_0_r, <- sum_over_scal. apply sum_over_ext. intros j Hj. rewrite nth_map_seq by auto. ring.
Qed.
Lemma diag_nonneg : forall n q v, (forall j, (j < n)%nat -> 0 <= q j) -> 0 <= diag_form n q v.
Proof.
  intros n q v H. unfold diag_form. apply (Rle_trans _ (sum_over n (fun _ => 0 * 0))); [rewrite (sum_over_scal n 0 (fun _ => 0)); lra|]. apply P_sep.sum_over_le. intros j Hj. specialize (H j Hj). assert (X := Rle_0_sqr (nth j v 0)). unfold Rsqr in X. nra.
Qed.
Lemma diag_convex : forall n q c, 0 <= c -> (forall j, (j < n)%nat -> 0 <= q j) -> convex_on n (fun v => c / 2 * diag_form n q v).
Proof.
  intros n q c Hc Hq x y t Lx Ly Ht. unfold between. assert (Ld : length (vsub y x) = n) by (unfold vsub; apply vzip_length2; auto).
  rewrite (diag_line n) by auto. assert (E := diag_line n q x (vsub y x) 1 Lx Ld). replace (vadd x (vscal 1 (vsub y x))) with y in E.
  - set (B := sum_over n _) in *. set (D := diag_form n q (vsub y x)) in *. assert (PD : 0 <= D) by (apply diag_nonneg; auto). rewrite E. assert (0 <= c / 2 * (t * (1 - t)) * D) by (apply Rmult_le_pos; [apply Rmult_le_pos; [lra|apply Rmult_le_pos; lra]|auto]). nra.
  - apply (nth_ext _ _ 0 0); [unfold vadd; rewrite (vzip_length2 _ _ _ n); auto; unfold vscal; rewrite map_length; auto|]. intros i Hi. rewrite (line_nth n) by (auto; lia). unfold vsub. rewrite (nth_zip0 _ _ _ n) by (auto; lia). ring.
Qed.
Lemma convex_plus : forall n f g, convex_on n f -> convex_on n g -> convex_on n (fun v => f v + g v).
Proof. intros n f g F G x y t Lx Ly Ht. specialize (F x y t Lx Ly Ht). specialize (G x y t Lx Ly Ht). lra. Qed.
Lemma gradient_plus : forall n f g x a b, is_gradient n f x a -> is_gradient n g x b -> is_gradient n (fun v => f v + g v) x (vadd a b).
Proof.
  intros n f g x a b (La & A) (Lb & B). split; [unfold vadd; apply vzip_length2; auto|]. intros d Ld. rewrite dot_add_l by (transitivity n; congruence). apply (derivable_pt_lim_plus _ _ _ _ _ (A d Ld) (B d Ld)).
Qed.
Lemma sub_line : forall n (x y : vec), length x = n -> length y = n -> vsub y x = vadd y (vscal (-1) x).
Proof.
  intros n x y Lx Ly. assert (Ls : length (vscal (-1) x) = n) by (unfold vscal; rewrite map_length; auto). apply (nth_ext _ _ 0 0); [unfold vadd, vsub; rewrite !(vzip_length2 _ _ _ n); auto|]. intros i Hi. unfold vsub in Hi. rewrite (vzip_length2 _ _ _ n) in Hi by auto. rewrite (line_nth n) by auto. unfold vsub. rewrite (nth_zip0 _ _ _ n) by auto. ring.
Qed.
Section Path.
Variable P : lpath.
Hypothesis GP : good_path P.
Let p := lp_size P.
Let m := t_out (lp_X P).
Lemma lin_len : forall v, length v = p -> length (t_lin (lp_X P) v) = m.
Proof. intros v Lv. destruct (gp_X _ GP) as ((A & _) & _). apply A. exact Lv. Qed.
Lemma path_gradient_right : forall lam v, length v = p -> is_gradient p (smooth_part P lam) v (path_gradient P v (t_lin (lp_X P) v) lam).
Proof.
  intros lam v Lv. unfold path_gradient, smooth_part. apply (gradient_plus p (fun v => lp_func P (t_lin (lp_X P) v))).
  - apply (glm_chain (lp_X P) p m None (lp_func P) v); [apply (gp_X _ GP)|exact I|auto|]. apply (gp_grad _ GP). apply lin_len. auto.
  - assert (D := diag_gradient p (fun j => nth j (lp_enet P) 0 * ridge (lp_weights P) lam j) v (1 - lp_alpha P) Lv). unfold diag_form in D.
    replace (enet_grad P v lam (seq 0 (lp_size P))) with (map (fun j => (1 - lp_alpha P) * (nth j (lp_enet P) 0 * ridge (lp_weights P) lam j * nth j v 0)) (seq 0 p)); [exact D|].
    unfold enet_grad. apply map_ext. intros j. unfold enet_entry, ridge, is0. destruct (Req_EM_T (nth j (lp_weights P) 0) 0); ring.
Qed.
Lemma smooth_convex : forall lam, 0 <= lam -> convex_on p (smooth_part P lam).
Proof.
  intros lam Hl. unfold smooth_part. apply convex_plus.
  - intros x y t Lx Ly Ht. assert (L := P_affine.adjoint_linear _ (proj1 (gp_X _ GP))). destruct L as (La & Ls). unfold between. rewrite La by (auto; unfold vscal, vsub; rewrite ?map_length; auto; apply vzip_length2; auto). rewrite Ls by (unfold vsub; apply vzip_length2; auto).
    assert (E : t_lin (lp_X P) (vsub y x) = vsub (t_lin (lp_X P) y) (t_lin (lp_X P) x)).
    { rewrite (sub_line p) by auto. rewrite La, Ls by (auto; unfold vscal; rewrite map_length; auto). symmetry. apply (sub_line m); apply lin_len; auto. }
    rewrite E. apply (gp_convex _ GP); auto; apply lin_len; auto.
  - apply (diag_convex p (fun j => nth j (lp_enet P) 0 * ridge (lp_weights P) lam j)); [destruct (gp_alpha _ GP); lra|]. intros j Hj. destruct (gp_e _ GP) as (Le & Ne). apply Rmult_le_pos; [unfold nonneg in Ne; rewrite Forall_forall in Ne; apply Ne, nth_In; unfold p in *; lia|]. unfold ridge. destruct (Req_EM_T _ _); lra.
Qed.
End Path.

(** ** lambda_max *)
Lemma dual_terms : forall w (g : vec), length g = length w -> nonneg w -> forall K, Forall (fun b => b <= K) (map (fun q => Rabs (fst q * snd q)) (masked finiteb (map invw (map Fin w)) g)) <-> forall j, (j < length w)%nat -> 0 < nth j w 0 -> Rabs (nth j g 0) <= K * nth j w 0.
Proof.
  induction w as [|a w IH]; intros [|b g] L Nw K; try discriminate; cbn [map masked]; [split; [intros _ j Hj; cbn in Hj; lia|constructor]|].
  apply Forall_inv in Nw as Na. apply Forall_inv_tail in Nw as Nw'. cbn [length] in L. injection L as L. specialize (IH g L Nw' K). change (invw (Fin a)) with (if Req_EM_T a 0 then PInf else Fin (1 / a)). destruct (Req_EM_T a 0) as [E|E].
  - subst a. rewrite IH. split; intros H j Hj Pj; [destruct j; cbn [nth length] in *; [lra|apply H; auto; lia]|apply (H (S j)); cbn [length nth]; auto; lia].
  - cbn [finiteb map masked]. assert (Pa : 0 < a) by lra. split.
    + intros H [|j] Hj Pj; cbn [nth length] in *; [|apply IH; auto; [apply Forall_inv_tail in H; auto|lia]]. apply Forall_inv in H. cbn [fst snd] in H. rewrite Rabs_mult, (Rabs_right (1 / a)) in H by (apply Rle_ge, Rlt_le, Rdiv_lt_0_compat; lra). apply (Rmult_le_compat_r a) in H; [|lra]. replace (Rabs b * (1 / a) * a) with (Rabs b) in H by (field; lra). auto.
    + intros H. constructor.
      * cbn [fst snd]. specialize (H 0%nat ltac:(cbn; lia) Pa). cbn [nth] in H. rewrite Rabs_mult, (Rabs_right (1 / a)) by (apply Rle_ge, Rlt_le, Rdiv_lt_0_compat; lra). apply (Rmult_le_compat_r (/ a)) in H; [|apply Rlt_le, Rinv_0_lt_compat; auto]. rewrite (Rmult_assoc K), Rinv_r in H by lra. unfold Rdiv. lra.
      * apply IH. intros j Hj Pj. apply (H (S j)); cbn [length nth]; auto. lia.
Qed.
Lemma dual_nonempty : forall w (g : vec), length g = length w -> (exists j, (j < length w)%nat /\ 0 < nth j w 0) -> map (fun q => Rabs (fst q * snd q)) (masked finiteb (map invw (map Fin w)) g) <> [].
Proof.
  induction w as [|a w IH]; intros [|b g] L (j & Hj & Pj); cbn [length] in *; try lia; try discriminate. cbn [map masked]. change (invw (Fin a)) with (if Req_EM_T a 0 then PInf else Fin (1 / a)). destruct (Req_EM_T a 0) as [E|E]; [|cbn; discriminate].
  destruct j as [|j]; cbn [nth] in Pj; [lra|]. apply IH; [lia|]. exists j. split; auto. lia.
Qed.
(** the largest |g_j| / w_j *)
Lemma sequence_max : forall w g prop nstep alpha, length g = length w -> nonneg w -> (exists j, (j < length w)%nat /\ 0 < nth j w 0) -> exists M, default_lagrange_sequence w g prop nstep alpha = Ok (map (fun a => a / alpha) (rev (map (fun t => M * exp t) (linspace (ln prop) 0 nstep)))) /\
  (forall j, (j < length w)%nat -> 0 < nth j w 0 -> Rabs (nth j g 0) <= M * nth j w 0) /\ 0 <= M.
Proof.
  intros w g prop nstep alpha L Nw Ex. destruct (np_max_spec _ (dual_nonempty w g L Ex)) as (M & E & U & _). exists M. unfold default_lagrange_sequence, w_seminorm. cbn [andb]. rewrite E. cbn [rmap rbind]. rewrite Rmult_1_l. split; auto.
  assert (B : forall j, (j < length w)%nat -> 0 < nth j w 0 -> Rabs (nth j g 0) <= M * nth j w 0) by (apply dual_terms; auto; apply U; lra). split; [exact B|]. destruct Ex as (j & Hj & Pj). specialize (B j Hj Pj). assert (X := Rabs_pos (nth j g 0)). nra.
Qed.
Lemma linspace_length : forall a b n, length (linspace a b n) = n.
Proof. intros a b n. unfold linspace. destruct n as [|[|n]]; auto. rewrite map_length, seq_length. auto. Qed.
Lemma linspace_nth : forall a b n i, (2 <= n)%nat -> (i < n)%nat -> nth i (linspace a b n) 0 = a + INR i * ((b - a) / INR (n - 1)).
Proof. intros a b n i Hn Hi. unfold linspace. destruct n as [|[|n]]; try lia. apply (nth_map_seq R (fun i => a + INR i * ((b - a) / INR (S (S n) - 1)))). auto. Qed.
Lemma sequence_nth : forall M alpha prop nstep i, (2 <= nstep)%nat -> (i < nstep)%nat ->
  nth i (map (fun a => a / alpha) (rev (map (fun t => M * exp t) (linspace (ln prop) 0 nstep)))) 0 = M * exp (ln prop * (INR i / INR (nstep - 1))) / alpha.
Proof.
  intros M alpha prop nstep i Hn Hi. assert (Ll := linspace_length (ln prop) 0 nstep). rewrite (nth_indep _ 0 ((fun a => a / alpha) 0)) by (rewrite map_length, rev_length, map_length, Ll; auto). rewrite (map_nth (fun a => a / alpha)). f_equal.
  rewrite rev_nth by (rewrite map_length, Ll; auto). rewrite map_length, Ll. rewrite (nth_indep _ 0 ((fun t => M * exp t) 0)) by (rewrite map_length, Ll; lia). rewrite (map_nth (fun t => M * exp t)), linspace_nth by lia. f_equal. f_equal.
  assert (0 < INR (nstep - 1)) by (apply lt_0_INR; lia). rewrite minus_INR by lia. rewrite S_INR. rewrite minus_INR in * by lia. change (INR 1) with 1 in *. field. lra.
Qed.
Theorem sequence_shape : forall w g prop nstep alpha ls, length g = length w -> nonneg w -> (exists j, (j < length w)%nat /\ 0 < nth j w 0 /\ nth j g 0 <> 0) -> 0 < prop < 1 -> (2 <= nstep)%nat -> 0 < alpha ->
  default_lagrange_sequence w g prop nstep alpha = Ok ls ->
  length ls = nstep /\ (forall i, (S i < nstep)%nat -> 0 < nth (S i) ls 0 < nth i ls 0) /\ nth (nstep - 1) ls 0 = prop * nth 0 ls 0 /\
  (forall j, (j < length w)%nat -> 0 < nth j w 0 -> Rabs (nth j g 0) <= alpha * nth 0 ls 0 * nth j w 0) /\ exists j, (j < length w)%nat /\ 0 < nth j w 0 /\ Rabs (nth j g 0) = alpha * nth 0 ls 0 * nth j w 0.
Proof.
  intros w g prop nstep alpha ls L Nw (j0 & Hj0 & Pj0 & Gj0) Hp Hn Ha E. assert (Ex : exists j, (j < length w)%nat /\ 0 < nth j w 0) by (exists j0; auto).
  destruct (np_max_spec _ (dual_nonempty w g L Ex)) as (M & EM & U & IM). unfold default_lagrange_sequence, w_seminorm in E. cbn [andb] in E. rewrite EM in E. cbn [rmap rbind] in E. rewrite Rmult_1_l in E. apply Ok_inj in E. subst ls.
  assert (B : forall j, (j < length w)%nat -> 0 < nth j w 0 -> Rabs (nth j g 0) <= M * nth j w 0) by (apply dual_terms; auto; apply U; lra).
  assert (PM : 0 < M). { specialize (B j0 Hj0 Pj0). assert (X := Rabs_pos_lt _ Gj0). nra. } assert (Lp : ln prop < 0) by (rewrite <- ln_1; apply ln_increasing; lra). assert (Pn : 0 < INR (nstep - 1)) by (apply lt_0_INR; lia).
  assert (N0 : nth 0 (map (fun a => a / alpha) (rev (map (fun t => M * exp t) (linspace (ln prop) 0 nstep)))) 0 = M / alpha). { rewrite sequence_nth by lia. cbn [INR]. unfold Rdiv at 2. rewrite Rmult_0_l, Rmult_0_r, exp_0. field. lra. }
  split; [rewrite map_length, rev_length, map_length; apply linspace_length|]. split.
  - intros i Hi. rewrite !sequence_nth by lia. split; [apply Rdiv_lt_0_compat; auto; apply Rmult_lt_0_compat; auto; apply exp_pos|]. unfold Rdiv. apply Rmult_lt_compat_r; [apply Rinv_0_lt_compat; auto|]. apply Rmult_lt_compat_l; auto. apply exp_increasing. rewrite S_INR. assert (0 < / INR (nstep - 1)) by (apply Rinv_0_lt_compat; auto). nra.
  - split; [|split].
    + rewrite N0, sequence_nth by lia. replace (INR (nstep - 1) / INR (nstep - 1)) with 1 by (field; lra). rewrite Rmult_1_r, exp_ln by lra. field. lra.
    + intros j Hj Pj. rewrite N0. replace (alpha * (M / alpha)) with M by (field; lra). auto.
    + rewrite N0. replace (alpha * (M / alpha)) with M by (field; lra). clear - IM L Nw. revert g L IM. induction w as [|a w IH]; intros [|b' g] L IM; try discriminate; [destruct IM|].
      cbn [map masked] in IM. apply Forall_inv in Nw as Na. apply Forall_inv_tail in Nw as Nw'. cbn [length] in L. injection L as L. change (invw (Fin a)) with (if Req_EM_T a 0 then PInf else Fin (1 / a)) in IM. destruct (Req_EM_T a 0) as [E|E]; cbn [finiteb map] in IM.
      * destruct (IH Nw' g L IM) as (j & Hj & Pj & Ej). exists (S j). cbn. repeat split; auto; lia.
      * destruct IM as [IM|IM].
        -- cbn [fst snd] in IM. exists 0%nat. cbn [nth length]. split; [lia|]. split; [lra|]. rewrite Rabs_mult, (Rabs_right (1 / a)) in IM by (apply Rle_ge, Rlt_le, Rdiv_lt_0_compat; lra). rewrite <- IM. field. lra.
        -- destruct (IH Nw' g L IM) as (j & Hj & Pj & Ej). exists (S j). cbn. repeat split; auto; lia.
Qed.
