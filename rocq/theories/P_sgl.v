(** sparse_group_lasso.py: proximal maps, values, conjugates. *)
From Coq Require Import Reals List Lra Lia Psatz Bool ZArith FunctionalExtensionality.
From Verif Require Import Vec Spec M_quad M_prox M_semi SpecAtom M_shift SpecBase SpecMode M_mode SpecModed SpecWeighted SpecPart SpecGroup M_mixed M_weighted M_group M_mixed_atom SpecGatom SpecSgl M_sgl
  P_quad P_prox P_semi P_conj P_shift P_gauge P_weighted P_part P_mixed P_kinds P_group P_group2 P_linear.
Import ListNotations.
Local Open Scope R_scope.

(** p is y with each entry multiplied by a number >= 0 *)
Definition shrunk (y p : vec) : Prop := Forall2 (fun a b => exists t, 0 <= t /\ b = t * a) y p.
Lemma soft_shrunk : forall w x k cut y p, length x = length w -> 0 <= k ->
  Forall (fun c => weight_legal c /\ match c with Fin r => cut c = Some (Fin (k * r)) | PInf => cut c = Some PInf end) w ->
  cut_all cut w x = Ok y -> shrunk y p -> exists r, wl1 w p = Fin r /\ dot (vsub x y) p = k * r.
Proof.
  induction w as [|c w IH]; intros [|a x] k cut y p Lx Hk H E S; simpl in Lx; try discriminate.
  - injection E as <-. inversion S; subst. exists 0. split; auto. unfold dot, vsum. simpl. ring.
  - destruct (Forall_inv H) as [Hc Hcut]. cbn [cut_all] in E.
    destruct c as [w0|]; rewrite Hcut in E; destruct (cut_all cut w x) as [y'|] eqn:E'; cbn [rmap] in E; try discriminate; apply Ok_inj in E; subst y; inversion S as [|? b ? p' (t & Ht & Hb) S']; subst;
      destruct (IH x k cut y' p' ltac:(congruence) Hk (Forall_inv_tail H) E' S') as (r & Er & Hd); cbn [wl1 wterm]; rewrite Er; unfold vsub in *; cbn [vzip]; rewrite dot_cons, Hd.
    + simpl in Hc. assert (Hkw : 0 <= k * w0) by nra. replace (soft_cut (Fin (k * w0)) a) with (soft (k * w0) a) by reflexivity.
      pose proof (soft_align (k * w0) a Hkw) as S2. eexists. split; [reflexivity|]. rewrite Rabs_mult, (Rabs_right t) by lra.
      change (sgn a * Rmax (Rabs a - k * w0) 0) with (soft (k * w0) a) in *.
      transitivity (t * ((a - soft (k * w0) a) * soft (k * w0) a) + k * r); [ring|]. rewrite S2. ring.
    + cbn [soft_cut]. rewrite Rmult_0_r. destruct (Req_EM_T 0 0); [|tauto]. cbn [ext_add]. exists (0 + r). split; auto. ring.
Qed.
Lemma factors_le1 : forall c w nr j, nth j (group_factors c w nr) 0 <= 1.
Proof.
  intros c w nr j. unfold group_factors. revert nr j. induction w as [|a w IH]; intros [|b nr] j; simpl; try (destruct j; simpl; lra).
  destruct j as [|j]; [|apply IH]. destruct (Rlt_dec 0 b); [apply Rmin_l|lra].
Qed.
Lemma clip_shrunk : forall c f kinds y, (forall k, In k kinds -> exists j, k = MGroup j) -> (forall j, nth j f 0 <= 1) -> length y = length kinds -> shrunk y (vsub y (tclips c f kinds y)).
Proof.
  intros c f. induction kinds as [|k kinds IH]; intros [|a y] Hk Hf L; simpl in L; try discriminate; [constructor|].
  unfold vsub. cbn [tclips vzip]. constructor.
  - destruct (Hk k) as (j & ->); [left; auto|]. cbn [tclip]. exists (1 - nth j f 0). split; [specialize (Hf j); lra|ring].
  - apply IH; auto. intros k' Hi. apply Hk. right. auto.
Qed.

(** The sum of two functions: certificates add when the first residual is still aligned. *)
Lemma sum_pcert : forall n h1 h2 c x y p r, pcert n h2 c y p -> length x = n -> length y = n ->
  (forall v s, length v = n -> h1 v = Fin s -> dot (vsub x y) v <= c * s) -> h1 p = Fin r -> dot (vsub x y) p = c * r ->
  pcert n (fun v => ext_add (h1 v) (h2 v)) c x p.
Proof.
  intros n h1 h2 c x y p r (_ & Lp & s & Es & H1 & H2) Lx Ly K1 Er K2. split; auto. split; auto. exists (r + s). rewrite Er, Es. split; auto.
  assert (E : forall v : vec, length v = n -> dot (vsub x p) v = dot (vsub x y) v + dot (vsub y p) v).
  { intros v Lv. rewrite !dot_sub_l by vlen. ring. }
  split.
  - intros v t Lv Ev. destruct (h1 v) as [t1|] eqn:E1; [|discriminate]. destruct (h2 v) as [t2|] eqn:E2; [|discriminate]. injection Ev as <-.
    rewrite E by auto. specialize (H1 v t2 Lv E2). specialize (K1 v t1 Lv E1). lra.
  - rewrite E by auto. rewrite K2, H2. ring.
Qed.

Section Prox.
Variables (labels : list Z) (lw : list ext) (given : Z -> option R) (n : nat).
Hypothesis Ln : length labels = n.
Hypothesis Lw : length lw = n.
Hypothesis Hlw : Forall weight_legal lw.
Hypothesis Hw : weights_nonneg labels given.
Let P := sparse_group labels lw (group_weight given labels).

Lemma s_prox_pcert : forall x L lam, length x = n -> 0 < L -> 0 <= lam -> 0 < lam \/ ~ In PInf lw ->
  exists p, s_lagrange_prox labels lw given x L lam = Ok p /\ pcert n P (lam / L) x p.
Proof.
  intros x L lam Lx HL Hl Hnan. unfold s_lagrange_prox, w_lagrange_prox.
  assert (Hk : 0 <= lam / L) by (apply Rmult_le_pos; [auto|left; apply Rinv_0_lt_compat; auto]).
  set (cut := fun wi => match fmul lam wi with Some (Fin r) => Some (Fin (r / L)) | o => o end).
  assert (Hc : Forall (fun c => weight_legal c /\ match c with Fin r => cut c = Some (Fin (lam / L * r)) | PInf => cut c = Some PInf end) lw).
  { apply Forall_forall. intros c Hc. rewrite Forall_forall in Hlw. split; auto. destruct c as [r|]; unfold cut; simpl.
    - do 2 f_equal. unfold Rdiv. ring.
    - destruct Hnan as [H|H]; [|tauto]. destruct (Rlt_dec 0 lam); auto. lra. }
  destruct (soft_cut_cert lw x (lam / L) cut ltac:(congruence) Hk Hc) as (y & E & Ly & r0 & Er0 & C1 & C2 & _).
  rewrite E. cbn [rbind]. rewrite Lw in *.
  assert (LK : length (g_kinds labels) = n) by (rewrite g_kinds_length; auto).
  assert (Wn : Forall (fun r => 0 <= r) (g_warr labels given)) by (apply warr_forall; exact Hw).
  unfold g_lagrange_prox, mixed_lagrange_prox. rewrite (mixed_clip_total (g_kinds labels) (g_warr labels given)); [|congruence|apply (group_no_nan _ [] (g_only labels))].
  cbn [rmap]. eexists. split; [reflexivity|].
  assert (S : shrunk y (vsub y (tclip_all (g_kinds labels) (g_warr labels given) (lam / L) y))).
  { unfold tclip_all. apply clip_shrunk; [apply g_only|intros; apply factors_le1|congruence]. }
  destruct (soft_shrunk lw x (lam / L) cut y _ ltac:(congruence) Hk Hc E S) as (r & Er & Hd).
  unfold P, sparse_group. apply sum_pcert with (y := y) (r := r); auto.
  pose proof (mix_pcert (g_kinds labels) (g_warr labels given) (g_valid _ _) Wn (lam / L) y) as M. rewrite LK, warr_map in M.
  destruct (M ltac:(congruence) Hk) as (A & B & s & Es & H1 & H2). rewrite <- warr_map in *. split; auto. split; auto. exists s. rewrite <- glasso_mix, <- warr_map. split; auto. split; auto.
  intros v t Lv Ev. rewrite <- glasso_mix, <- warr_map in Ev. auto.
Qed.
Theorem s_lagrange_correct : forall x L lam, length x = n -> 0 < L -> 0 <= lam -> 0 < lam \/ ~ In PInf lw ->
  exists p, s_lagrange_prox labels lw given x L lam = Ok p /\ is_unique_argmin n (prox_objective L x (gmode P (Lagrange lam))) p.
Proof. intros x L lam Lx HL Hl Hn. destruct (s_prox_pcert x L lam Lx HL Hl Hn) as (p & E & C). exists p. split; auto. apply pcert_prox; auto. Qed.

(** The residual is the projection on the dual ball *)
Lemma pcert_dual_proj : forall (Q : vec -> ext) c x p, pcert n Q c x p -> is_proj n (dual_ball n Q c) x (vsub x p).
Proof.
  intros Q c x p (Lx & Lp & r & Er & H1 & H2). apply proj_certificate; auto; [vlen|]. intros v Lv Hv.
  rewrite (vsub_vsub n) by auto. rewrite dot_sub_r by vlen. rewrite (dot_comm p (vsub x p)), H2. specialize (Hv p r Lp Er). rewrite dot_comm in Hv. lra.
Qed.
End Prox.
