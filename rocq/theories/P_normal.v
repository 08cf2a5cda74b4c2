(** The normal distribution: existence, symmetry, monotonicity, the tail bound of Mills, and what follows for the ratios the probit loss uses. *)
From Coq Require Import Reals Lra Psatz.
From Coquelicot Require Import Coquelicot.
From Verif Require Import SpecNormal.
Local Open Scope R_scope.

(** ** Monotone functions from their derivative *)
Lemma mono_le : forall (F g : R -> R) a b, (forall x, a <= x <= b -> derivable_pt_lim F x (g x)) -> (forall x, a <= x <= b -> 0 <= g x) -> a <= b -> F a <= F b.
Proof.
  intros F g a b D P H. destruct (Rle_lt_or_eq_dec a b H) as [Hl| ->]; [|lra].
  destruct (MVT_cor2 F g a b Hl D) as (c & E & Hc). assert (0 <= g c) by (apply P; lra). nra.
Qed.
Lemma mono_lt : forall (F g : R -> R) a b, (forall x, a <= x <= b -> derivable_pt_lim F x (g x)) -> (forall x, a <= x <= b -> 0 < g x) -> a < b -> F a < F b.
Proof. intros F g a b D P Hl. destruct (MVT_cor2 F g a b Hl D) as (c & E & Hc). assert (0 < g c) by (apply P; lra). nra. Qed.
Lemma deriv_const : forall (F : R -> R) a b, (forall x, derivable_pt_lim F x 0) -> F a = F b.
Proof.
  assert (H : forall (F : R -> R) a b, (forall x, derivable_pt_lim F x 0) -> a <= b -> F a = F b).
  { intros F a b D H. apply Rle_antisym; [apply (mono_le F (fun _ => 0)); auto; intros; lra|].
    assert (- F a <= - F b); [|lra]. apply (mono_le (fun x => - F x) (fun _ => 0)); auto; intros; [|lra]. replace 0 with (- 0) by ring. apply derivable_pt_lim_opp. auto. }
  intros F a b D. destruct (Rle_dec a b); [auto|symmetry; apply H; auto; lra].
Qed.

(** ** Existence *)
Definition bell (x : R) : R := exp (- (x * x / 2)).
Lemma bell_deriv : forall x, derivable_pt_lim bell x (- x * bell x).
Proof. intros x. apply is_derive_Reals. unfold bell. auto_derive; auto. unfold Rdiv. field. Qed.
Lemma bell_pos : forall x, 0 < bell x.
Proof. intros. apply exp_pos. Qed.
Lemma bell_even : forall x, bell (- x) = bell x.
Proof. intros x. unfold bell. f_equal. lra. Qed.
Lemma bell_continuous : forall x, continuous bell x.
Proof. intros x. apply continuity_pt_filterlim. apply derivable_continuous_pt. exists (- x * bell x). apply bell_deriv. Qed.
Definition area (x : R) : R := RInt bell 0 x.
Lemma area_deriv : forall x, derivable_pt_lim area x (bell x).
Proof.
  intros x. apply is_derive_Reals. apply (is_derive_RInt bell area 0 x); [|apply bell_continuous].
  apply filter_forall. intros b. apply (RInt_correct bell). apply ex_RInt_continuous. intros. apply bell_continuous.
Qed.
Lemma area_0 : area 0 = 0.
Proof. unfold area. apply (RInt_point 0 bell). Qed.
Lemma area_odd : forall x, area (- x) = - area x.
Proof.
  intros x. assert (E : area x + area (- x) = area 0 + area (- 0)).
  { apply (deriv_const (fun x => area x + area (- x))). intros y. replace 0 with (bell y + bell (- y) * - 1) by (rewrite bell_even; ring).
    apply derivable_pt_lim_plus; [apply area_deriv|]. apply (derivable_pt_lim_comp (fun z => - z) area); [|apply area_deriv].
    apply (derivable_pt_lim_opp (fun z => z)). apply derivable_pt_lim_id. }
  rewrite Ropp_0, area_0 in E. lra.
Qed.
Lemma area_mono : forall a b, a < b -> area a < area b.
Proof. intros a b H. apply (mono_lt area bell); auto using area_deriv, bell_pos. Qed.
Lemma bell_le : forall x, bell x <= exp (/ 2) * exp (- x).
Proof. intros x. rewrite <- exp_plus. unfold bell. assert (Q := Rle_0_sqr (x - 1)). unfold Rsqr in Q. destruct (Rlt_dec (- (x * x / 2)) (/ 2 + - x)) as [H|H]; [left; apply exp_increasing; exact H|]. replace (- (x * x / 2)) with (/ 2 + - x) by lra. lra. Qed.
Lemma area_bound : forall x, area x <= exp (/ 2).
Proof.
  intros x. destruct (Rle_dec x 0) as [H|H].
  - assert (area x <= area 0) by (destruct (Req_dec x 0) as [->|]; [lra|left; apply area_mono; lra]). rewrite area_0 in *. assert (0 < exp (/ 2)) by apply exp_pos. lra.
  - assert (K : exp (/ 2) * (1 - exp (- 0)) - area 0 <= exp (/ 2) * (1 - exp (- x)) - area x).
    { apply (mono_le (fun y => exp (/ 2) * (1 - exp (- y)) - area y) (fun y => exp (/ 2) * exp (- y) - bell y)); [| |lra].
      - intros y _. apply derivable_pt_lim_minus; [|apply area_deriv]. apply is_derive_Reals. auto_derive; auto. ring.
      - intros y _. pose proof (bell_le y). lra. }
    rewrite area_0, Ropp_0, exp_0 in K. assert (0 < exp (/ 2)) by apply exp_pos. assert (0 < exp (- x)) by apply exp_pos. nra.
Qed.
Theorem normal_exists : exists cdf pdf, is_normal cdf pdf.
Proof.
  destruct (completeness (fun y => exists x, y = area x)) as (m & Ub & Lub).
  { exists (exp (/ 2)). intros y [x ->]. apply area_bound. } { exists (area 0), 0. auto. }
  assert (Hm : forall x, area x < m). { intros x. apply Rlt_le_trans with (area (x + 1)); [apply area_mono; lra|]. apply Ub. eauto. }
  assert (Hc : forall eps, 0 < eps -> exists x, m - eps < area x).
  { intros eps He. apply Classical_Pred_Type.not_all_not_ex. intros N. assert (m <= m - eps); [|lra]. apply Lub. intros y [x ->]. specialize (N x). lra. }
  assert (m0 : 0 < m) by (rewrite <- area_0; apply Hm).
  assert (Up : forall eps, 0 < eps -> exists M, forall x, M <= x -> Rabs ((area x + m) / (2 * m) - 1) < eps).
  { intros eps He. destruct (Hc (2 * m * eps)) as [M HM]; [nra|]. exists M. intros x Hx. assert (area M <= area x) by (destruct (Req_dec M x) as [->|]; [lra|left; apply area_mono; lra]). specialize (Hm x).
    replace ((area x + m) / (2 * m) - 1) with (- ((m - area x) / (2 * m))) by (field; lra). rewrite Rabs_Ropp, Rabs_pos_eq by (apply Rmult_le_pos; [lra|left; apply Rinv_0_lt_compat; lra]).
    apply Rmult_lt_reg_r with (2 * m); [lra|]. unfold Rdiv. rewrite Rmult_assoc, Rinv_l by lra. lra. }
  exists (fun x => (area x + m) / (2 * m)), (fun x => bell x / (2 * m)). split.
  - intros x. unfold Rdiv. replace (bell x * / (2 * m)) with ((bell x + 0) * / (2 * m) + (area x + m) * 0) by ring.
    apply (derivable_pt_lim_mult (fun x => area x + m) (fun _ => / (2 * m))); [|apply derivable_pt_lim_const]. apply derivable_pt_lim_plus; [apply area_deriv|apply derivable_pt_lim_const].
  - intros x. unfold bell. replace (- (0 * 0 / 2)) with 0 by lra. rewrite exp_0. field. lra.
  - apply Rdiv_lt_0_compat; [apply bell_pos|lra].
  - intros eps He. destruct (Up eps He) as [M HM]. exists (- M). intros x Hx. specialize (HM (- x) ltac:(lra)). rewrite area_odd in HM. replace ((area x + m) / (2 * m)) with (- ((- area x + m) / (2 * m) - 1)) by (field; lra). rewrite Rabs_Ropp. exact HM.
  - exact Up.
Qed.

(** ** Consequences *)
Section Normal.
Variables cdf pdf : R -> R.
Hypothesis N : is_normal cdf pdf.
Lemma pdf_pos : forall x, 0 < pdf x.
Proof. intros x. rewrite (nm_shape _ _ N). apply Rmult_lt_0_compat; [apply N|apply exp_pos]. Qed.
Lemma pdf_even : forall x, pdf (- x) = pdf x.
Proof. intros x. rewrite (nm_shape _ _ N (- x)), (nm_shape _ _ N x). do 2 f_equal. lra. Qed.
Lemma pdf_deriv : forall x, derivable_pt_lim pdf x (- x * pdf x).
Proof.
  intros x. assert (D : derivable_pt_lim (fun y => pdf 0 * bell y) x (pdf 0 * (- x * bell x))).
  { replace (pdf 0 * (- x * bell x)) with (0 * bell x + pdf 0 * (- x * bell x)) by ring. apply (derivable_pt_lim_mult (fun _ => pdf 0) bell); [apply derivable_pt_lim_const|apply bell_deriv]. }
  rewrite (nm_shape _ _ N x). replace (- x * (pdf 0 * exp (- (x * x / 2)))) with (pdf 0 * (- x * bell x)) by (unfold bell; ring).
  apply is_derive_Reals. apply is_derive_ext with (fun y => pdf 0 * bell y); [intros t; symmetry; apply (nm_shape _ _ N)|]. apply is_derive_Reals. exact D.
Qed.
Lemma cdf_mono : forall a b, a < b -> cdf a < cdf b.
Proof. intros a b H. apply (mono_lt cdf pdf); auto using pdf_pos. intros. apply N. Qed.
Lemma cdf_pos : forall x, 0 < cdf x.
Proof.
  intros x. destruct (Rlt_dec 0 (cdf x)) as [|H]; auto. exfalso. assert (M1 := cdf_mono (x - 1) x ltac:(lra)).
  destruct (nm_left _ _ N (- cdf (x - 1))) as [M HM]; [lra|]. set (y := Rmin M (x - 2)). specialize (HM y (Rmin_l _ _)). assert (y < x - 1) by (unfold y; pose proof (Rmin_r M (x - 2)); lra). pose proof (cdf_mono y (x - 1) H0). rewrite Rabs_left in HM by lra. lra.
Qed.
Lemma cdf_lt1 : forall x, cdf x < 1.
Proof.
  intros x. destruct (Rlt_dec (cdf x) 1) as [|H]; auto. exfalso. assert (M1 := cdf_mono x (x + 1) ltac:(lra)).
  destruct (nm_right _ _ N (cdf (x + 1) - 1)) as [M HM]; [lra|]. set (y := Rmax M (x + 2)). specialize (HM y (Rmax_l _ _)). assert (x + 1 < y) by (unfold y; pose proof (Rmax_r M (x + 2)); lra). pose proof (cdf_mono (x + 1) y H0). rewrite Rabs_pos_eq in HM by lra. lra.
Qed.
Lemma cdf_sym : forall x, cdf (- x) = 1 - cdf x.
Proof.
  intros x. assert (E : forall y, cdf x + cdf (- x) = cdf y + cdf (- y)).
  { intros y. apply (deriv_const (fun x => cdf x + cdf (- x))). intros z. replace 0 with (pdf z + pdf (- z) * - 1) by (rewrite pdf_even; ring).
    apply derivable_pt_lim_plus; [apply N|]. apply (derivable_pt_lim_comp (fun z => - z) cdf); [|apply N]. apply (derivable_pt_lim_opp (fun z => z)). apply derivable_pt_lim_id. }
  assert (Hs : forall eps, 0 < eps -> Rabs (cdf x + cdf (- x) - 1) < eps).
  { intros eps He. destruct (nm_left _ _ N (eps / 2)) as [M1 H1]; [lra|]. destruct (nm_right _ _ N (eps / 2)) as [M2 H2]; [lra|]. set (y := Rmax M2 (- M1)). rewrite (E y). specialize (H2 y (Rmax_l _ _)). specialize (H1 (- y)). assert (K : - y <= M1) by (unfold y; pose proof (Rmax_r M2 (- M1)); lra). specialize (H1 K).
    replace (cdf y + cdf (- y) - 1) with ((cdf y - 1) + cdf (- y)) by ring. eapply Rle_lt_trans; [apply Rabs_triang|]. lra. }
  destruct (Req_dec (cdf x + cdf (- x) - 1) 0) as [Z|Z]; [lra|]. apply Rabs_pos_lt in Z. specialize (Hs _ Z). lra.
Qed.
(** Mills: the left tail is below the density over |x| *)
Lemma mills : forall x, 0 < x * cdf x + pdf x.
Proof.
  intros x. destruct (Rle_dec 0 x) as [H|H]; [pose proof (cdf_pos x); pose proof (pdf_pos x); nra|]. apply Rnot_le_lt in H.
  assert (Dd : forall y, derivable_pt_lim (fun y => y * cdf y + pdf y) y (cdf y)).
  { intros y. pose proof (derivable_pt_lim_plus (fun y => y * cdf y) pdf y _ _ (derivable_pt_lim_mult (fun y => y) cdf y _ _ (derivable_pt_lim_id y) (nm_density _ _ N y)) (pdf_deriv y)) as D. cbv beta in D. replace (1 * cdf y + y * pdf y + - y * pdf y) with (cdf y) in D by ring. exact D. }
  (* it is enough that the value is >= 0 to the left *)
  assert (G : 0 <= (x - 1) * cdf (x - 1) + pdf (x - 1)).
  { set (w := x - 1). assert (Hw : w < 0) by (unfold w; lra). clearbody w. clear x H.
    assert (K : forall y, y < w -> cdf w + pdf w / w <= cdf y).
    { intros y Hy. assert (Q : - (cdf y + pdf y / y) <= - (cdf w + pdf w / w)).
      { apply (mono_le (fun y => - (cdf y + pdf y / y)) (fun y => pdf y / (y * y))); [| |lra].
        - intros z Hz. replace (pdf z / (z * z)) with (- (pdf z + (- z * pdf z * z - 1 * pdf z) / z²)) by (unfold Rsqr; field; lra). apply derivable_pt_lim_opp. apply derivable_pt_lim_plus; [apply N|].
          apply (derivable_pt_lim_div pdf (fun z => z)); [apply pdf_deriv|apply derivable_pt_lim_id|lra].
        - intros z Hz. apply Rmult_le_pos; [left; apply pdf_pos|left; apply Rinv_0_lt_compat; nra]. }
      assert (pdf y / y <= 0). { assert (Hp := pdf_pos y). assert (0 < / - y) by (apply Rinv_0_lt_compat; lra). replace (pdf y / y) with (- (pdf y * / - y)) by (field; lra). nra. } lra. }
    assert (Z : cdf w + pdf w / w <= 0).
    { destruct (Rle_dec (cdf w + pdf w / w) 0); auto. exfalso. destruct (nm_left _ _ N (cdf w + pdf w / w)) as [M HM]; [lra|]. set (y := Rmin M (w - 1)). specialize (HM y (Rmin_l _ _)). specialize (K y). assert (Hy : y < w) by (unfold y; pose proof (Rmin_r M (w - 1)); lra). specialize (K Hy). rewrite Rabs_pos_eq in HM by (left; apply cdf_pos). lra. }
    assert (Hp : pdf w = w * (pdf w / w)) by (field; lra). nra. }
  assert (Hlt := mono_lt _ _ (x - 1) x (fun y _ => Dd y) (fun y _ => cdf_pos y) ltac:(lra)). cbv beta in Hlt. lra.
Qed.
(** The two ratios in the gradient *)
Lemma ratio_deriv : forall x, derivable_pt_lim (fun y => pdf y / cdf y) x (- (pdf x * (x * cdf x + pdf x) / (cdf x * cdf x))).
Proof.
  intros x. assert (H := cdf_pos x). replace (- (pdf x * (x * cdf x + pdf x) / (cdf x * cdf x))) with ((- x * pdf x * cdf x - pdf x * pdf x) / (cdf x)²) by (unfold Rsqr; field; lra).
  apply derivable_pt_lim_div; [apply pdf_deriv|apply N|lra].
Qed.
Lemma ratio_decreasing : forall a b, a <= b -> pdf b / cdf b <= pdf a / cdf a.
Proof.
  intros a b H. assert (- (pdf a / cdf a) <= - (pdf b / cdf b)); [|lra]. apply (mono_le (fun y => - (pdf y / cdf y)) (fun x => pdf x * (x * cdf x + pdf x) / (cdf x * cdf x))); auto.
  - intros x _. rewrite <- (Ropp_involutive (pdf x * (x * cdf x + pdf x) / (cdf x * cdf x))). apply derivable_pt_lim_opp. apply ratio_deriv.
  - intros x _. assert (H1 := cdf_pos x). assert (H2 := pdf_pos x). assert (H3 := mills x). apply Rmult_le_pos; [nra|]. left. apply Rinv_0_lt_compat. nra.
Qed.
Lemma ratio_c_increasing : forall a b, a <= b -> pdf a / (1 - cdf a) <= pdf b / (1 - cdf b).
Proof. intros a b H. assert (K := ratio_decreasing (- b) (- a) ltac:(lra)). rewrite !cdf_sym, !pdf_even in K. exact K. Qed.
End Normal.
