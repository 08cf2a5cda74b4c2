(** Value and gradient of the losses, case by case. *)
From Coq Require Import Reals List Lra Lia Arith Bool.
From Verif Require Import Vec Spec SpecConvex M_loss SpecLoss P_quad P_calc P_sep.
Import ListNotations.
Local Open Scope R_scope.

Lemma scale_eq : forall c r, scale c r = c * r.
Proof. intros c r. unfold scale. destruct (Req_EM_T c 1); [subst|]; ring. Qed.
Lemma vscale_eq : forall c v, vscale c v = vscal c v.
Proof. intros c v. unfold vscale, vscal. destruct (Req_EM_T c 1); [subst; rewrite <- (map_id v) at 1; apply map_ext; intros; ring|apply map_ext; intros; ring]. Qed.

(** What the code computes for one case. *)
Definition log_exp1 (a : R) : R := if Rle_dec a 100 then ln (1 + exp a) else a.
Definition ratio1 (a : R) : R := if Rle_dec a 100 then exp a / (1 + exp a) else 1.
Definition val_case (k : family) (i : nat) (a : R) : R :=
  match k with
  | Gaussian y => (a - nth i y 0) * (a - nth i y 0) / 2
  | Logistic s t => nth i t 0 * log_exp1 a - nth i s 0 * a
  | Poisson n => exp a - nth i n 0 * a
  | Cloglog s t => - (nth i s 0 * ln (1 - exp (- exp (clip5 a))) + (nth i t 0 - nth i s 0) * ln (exp (- exp (clip5 a))))
  | Huber y eps => huber_val eps (a - nth i y 0)
  | HuberSvm s eps => svm_val eps ((2 * nth i s 0 - 1) * a)
  end.
Definition grad_case (k : family) (i : nat) (a : R) : R :=
  match k with
  | Gaussian y => a - nth i y 0
  | Logistic s t => nth i t 0 * ratio1 a - nth i s 0
  | Poisson n => exp a - nth i n 0
  | Cloglog s t => - (exp (a - exp a) * (nth i s 0 / (1 - exp (- exp (clip5 a))) - (nth i t 0 - nth i s 0) / exp (- exp (clip5 a))))
  | Huber y eps => huber_proj eps (a - nth i y 0)
  | HuberSvm s eps => - svm_proj eps ((2 * nth i s 0 - 1) * a) * (2 * nth i s 0 - 1)
  end.

Lemma zl : forall f (x y : vec) n, length x = n -> length y = n -> length (vzip f x y) = n.
Proof. exact vzip_length2. Qed.
Lemma ml : forall (f : R -> R) x n, length x = n -> length (map f x) = n.
Proof. intros. rewrite map_length. auto. Qed.
Ltac len := repeat first [assumption | apply zl | apply ml].
Ltac nths n := repeat first [rewrite (nth_zip0 _ _ _ n) by (len; assumption) | rewrite nth_map0 by (match goal with |- (_ < length ?l)%nat => replace (length l) with n by (symmetry; len) end; assumption)].
Lemma log_exp_map : forall x, log_exp x = map log_exp1 x.
Proof.
  intros x. unfold log_exp. destruct (existsb _ x) eqn:E; auto. apply map_ext_in. intros a Ha. unfold log_exp1. destruct (Rle_dec a 100) as [|N]; auto.
  exfalso. assert (H : existsb (fun a => if Rlt_dec 100 a then true else false) x = true) by (apply existsb_exists; exists a; split; auto; destruct (Rlt_dec 100 a); [auto|lra]). congruence.
Qed.
Lemma vzip_ext_in : forall f g (x y : vec), (forall a b, In b y -> f a b = g a b) -> vzip f x y = vzip g x y.
Proof. intros f g. induction x as [|a x IH]; intros [|b y] H; cbn; auto. f_equal; [apply H; left; auto|]. apply IH. intros. apply H. right. auto. Qed.
Lemma logit_ratio_map : forall t x, logit_ratio t x = vzip (fun t a => t * ratio1 a) t x.
Proof.
  intros t x. unfold logit_ratio. destruct (existsb _ x) eqn:E; apply vzip_ext_in; intros s a Ha; unfold ratio1; destruct (Rle_dec a 100) as [|N]; auto; [ring|].
  exfalso. assert (H : existsb (fun a => if Rlt_dec 100 a then true else false) x = true) by (apply existsb_exists; exists a; split; auto; destruct (Rlt_dec 100 a); [auto|lra]). congruence.
Qed.
Lemma minus_length : forall x o n, length x = n -> off_fits n o -> length (minus x o) = n.
Proof. intros x [a|] n L H; cbn in *; auto. unfold vsub. apply zl; auto. Qed.

Lemma loss_func_cases : forall k n c off cw x, fits k n -> off_fits n off -> length cw = n -> length x = n ->
  loss_func k c off cw x = c * sum_over n (fun i => nth i cw 0 * val_case k i (nth i (predictor k off x) 0)).
Proof.
  intros k n c off cw x F O Lc Lx. assert (Lm := minus_length x off n Lx O). change (sub_offset off x) with (minus x off) in *. unfold loss_func. change (sub_offset off x) with (minus x off). set (z := minus x off) in *.
  destruct k as [y|s t|y|s t|y e|s e]; cbn [fits val_case predictor] in *; rewrite scale_eq; fold z; unfold dot, vmul, vsub, vadd.
  - rewrite (vsum_index n) by len. unfold Rdiv. rewrite Rmult_assoc. f_equal. rewrite Rmult_comm, <- sum_over_scal. apply sum_over_ext. intros i Hi. nths n. lra.
  - destruct F as [Ls Lt]. rewrite log_exp_map, !(vsum_index n) by len. rewrite <- Ropp_mult_distr_r_reverse. f_equal. match goal with |- - (?A - ?B) = _ => replace (- (A - B)) with (B + (-1) * A) by ring end.
    rewrite <- sum_over_scal, <- sum_over_plus. apply sum_over_ext. intros i Hi. nths n. ring.
  - rewrite !(vsum_index n) by len. rewrite <- Ropp_mult_distr_r_reverse. f_equal. match goal with |- - (- ?A + ?B) = _ => replace (- (- A + B)) with (A + (-1) * B) by ring end.
    rewrite <- sum_over_scal, <- sum_over_plus. apply sum_over_ext. intros i Hi. nths n. ring.
  - destruct F as [Ls Lt]. rewrite !(vsum_index n) by len. rewrite <- Ropp_mult_distr_r_reverse. f_equal. match goal with |- - ?A = _ => replace (- A) with ((-1) * A) by ring end.
    rewrite <- sum_over_scal. apply sum_over_ext. intros i Hi. nths n. ring.
  - destruct F as [Ly He]. rewrite (vsum_index n) by len. f_equal. apply sum_over_ext. intros i Hi. nths n. ring.
  - destruct F as [Ly He]. unfold encode. rewrite (vsum_index n) by len. f_equal. apply sum_over_ext. intros i Hi. nths n. ring.
Qed.
Lemma loss_grad_cases : forall k n c off cw x, fits k n -> off_fits n off -> length cw = n -> length x = n ->
  length (loss_grad k c off cw x) = n /\ forall i, (i < n)%nat -> nth i (loss_grad k c off cw x) 0 = c * (nth i cw 0 * grad_case k i (nth i (predictor k off x) 0)).
Proof.
  intros k n c off cw x F O Lc Lx. assert (Lm := minus_length x off n Lx O). unfold loss_grad. change (sub_offset off x) with (minus x off). set (z := minus x off) in *.
  destruct k as [y|s t|y|s t|y e|s e]; cbn [fits grad_case predictor] in *; rewrite vscale_eq; fold z; try rewrite logit_ratio_map; unfold vopp, vscal, vmul, vsub, vadd, encode;
    try (match type of F with _ /\ _ => destruct F as [F1 F2] end); (split; [len|]); intros i Hi; nths n; ring.
Qed.

(** ** Derivatives of one case *)
Lemma derive_local : forall F G a l d, 0 < d -> (forall b, Rabs (b - a) < d -> F b = G b) -> derivable_pt_lim F a l -> derivable_pt_lim G a l.
Proof.
  intros F G a l d Hd H D eps He. destruct (D eps He) as [e De]. assert (Hm : 0 < Rmin d e) by (apply Rmin_pos; [auto|apply cond_pos]). exists (mkposreal _ Hm). cbn. intros h Hh Hlt.
  assert (L1 := Rmin_l d e). assert (L2 := Rmin_r d e). rewrite <- !H.
  - apply De; auto. lra.
  - replace (a - a) with 0 by ring. rewrite Rabs_R0. auto.
  - replace (a + h - a) with h by ring. lra.
Qed.
Lemma d_softplus : forall a, derivable_pt_lim (fun a => ln (1 + exp a)) a (exp a / (1 + exp a)).
Proof.
  intros a. assert (P := exp_pos a). replace (exp a / (1 + exp a)) with (/ (1 + exp a) * (0 + exp a)) by (field; lra).
  apply (derivable_pt_lim_comp (fun a => 1 + exp a) ln).
  - apply derivable_pt_lim_plus; [apply derivable_pt_lim_const|apply derivable_pt_lim_exp].
  - apply derivable_pt_lim_ln. lra.
Qed.
Lemma d_minus_linear : forall F a l s, derivable_pt_lim F a l -> derivable_pt_lim (fun b => F b - s * b) a (l - s).
Proof. intros F a l s H. apply derivable_pt_lim_minus; auto. replace s with (s * 1) at 2 by ring. apply (derivable_pt_lim_scal (fun b => b)). apply derivable_pt_lim_id. Qed.
Lemma huber_proj_clip : forall e a, 0 < e -> huber_proj e a = Rmax (-1) (Rmin (a / e) 1).
Proof.
  intros e a He. unfold huber_proj, np_sign. destruct (Rlt_dec a 0) as [N|N]; [|destruct (Rlt_dec 0 a) as [P|P]].
  - assert (Q : a / e < 0) by (assert (IP := Rinv_0_lt_compat e He); unfold Rdiv; nra). rewrite Rabs_left by auto. replace (- a / e) with (- (a / e)) by (unfold Rdiv; ring). set (q := a / e) in *. clearbody q.
    unfold Rmin, Rmax. repeat destruct (Rle_dec _ _); lra.
  - assert (Q : 0 < a / e) by (apply Rdiv_lt_0_compat; auto). rewrite Rabs_pos_eq by lra. set (q := a / e) in *. clearbody q. unfold Rmin, Rmax. repeat destruct (Rle_dec _ _); lra.
  - replace a with 0 by lra. unfold Rdiv. rewrite !Rmult_0_l. unfold Rmin, Rmax. repeat destruct (Rle_dec _ _); lra.
Qed.
Lemma huber_best : forall e a q, 0 < e -> -1 <= q <= 1 -> q * a - e * (q * q) / 2 <= huber_val e a.
Proof.
  intros e a q He Hq. unfold huber_val. rewrite huber_proj_clip by auto. set (p := Rmax (-1) (Rmin (a / e) 1)).
  assert (E : a = e * (a / e)) by (field; lra). set (w := a / e) in *. rewrite E. clearbody w. clear E a.
  assert (H : q * w - q * q / 2 <= w * p - p * p / 2). { assert (A : 0 <= (p - q) * (w - p)). { unfold p, Rmin, Rmax. repeat destruct (Rle_dec _ _); try lra; nra. } assert (B : 0 <= (p - q) * (p - q)) by apply Rle_0_sqr. lra. }
  assert (X := Rmult_le_compat_l e _ _ (Rlt_le _ _ He) H). lra.
Qed.
Lemma huber_proj_range : forall e a, 0 < e -> -1 <= huber_proj e a <= 1.
Proof. intros. rewrite huber_proj_clip by auto. unfold Rmin, Rmax. repeat destruct (Rle_dec _ _); lra. Qed.
Lemma huber_proj_mono : forall e a b, 0 < e -> a <= b -> 0 <= huber_proj e b - huber_proj e a <= (b - a) / e.
Proof.
  intros e a b He H. rewrite !huber_proj_clip by auto. assert (Q : 0 <= (b - a) / e). { unfold Rdiv. apply Rmult_le_pos; [lra|]. left. apply Rinv_0_lt_compat. auto. }
  assert (E : b / e = a / e + (b - a) / e) by (field; lra). set (u := a / e) in *. set (v := b / e) in *. set (d := (b - a) / e) in *. clearbody u v d. unfold Rmin, Rmax. repeat destruct (Rle_dec _ _); lra.
Qed.
Lemma huber_tangent : forall e a b, 0 < e -> huber_val e a + huber_proj e a * (b - a) <= huber_val e b.
Proof. intros e a b He. assert (H := huber_best e b (huber_proj e a) He (huber_proj_range e a He)). unfold huber_val at 1. lra. Qed.
Lemma d_from_tangent : forall F g a K, 0 <= K -> (forall a b, F a + g a * (b - a) <= F b) -> (forall b, (g b - g a) * (b - a) <= K * ((b - a) * (b - a))) -> derivable_pt_lim F a (g a).
Proof.
  intros F g a K HK T L. apply (derive_sandwich F a (g a) K HK). intros b. assert (T1 := T a b). assert (T2 := T b a). specialize (L b). apply Rabs_le. split; [|lra].
  assert (0 <= K * ((b - a) * (b - a))) by (apply Rmult_le_pos; [auto|apply Rle_0_sqr]). lra.
Qed.
Lemma d_huber : forall e a, 0 < e -> derivable_pt_lim (huber_val e) a (huber_proj e a).
Proof.
  intros e a He. apply (d_from_tangent _ _ a (/ e)); [left; apply Rinv_0_lt_compat; auto|intros; apply huber_tangent; auto|].
  intros b. destruct (Rle_dec a b) as [H|H].
  - assert (M := huber_proj_mono e a b He H). unfold Rdiv in M. assert (X := Rmult_le_compat_r (b - a) _ _ ltac:(lra) (proj2 M)). lra.
  - assert (M := huber_proj_mono e b a He ltac:(lra)). unfold Rdiv in M. assert (X := Rmult_le_compat_r (a - b) _ _ ltac:(lra) (proj2 M)). lra.
Qed.
Lemma svm_proj_clip : forall z, svm_proj 1 z = Rmax 0 (Rmin (1 - z) 1).
Proof.
  intros z. unfold svm_proj, svm_arg. replace ((1 - z) / 1) with (1 - z) by field. cbv zeta.
  unfold Rmin, Rmax. destruct (Rlt_dec 0 (1 - z)), (Rlt_dec (1 - z) 1), (Rle_dec 1 (1 - z)), (Rle_dec (1 - z) 1), (Rle_dec 0 _); lra.
Qed.
Lemma svm_best : forall z q, 0 <= q <= 1 -> q * (1 - z) - q * q / 2 <= svm_val 1 z.
Proof.
  intros z q Hq. unfold svm_val, svm_arg. rewrite svm_proj_clip. replace ((1 - z) / 1) with (1 - z) by field. set (w := 1 - z). clearbody w. clear z. set (p := Rmax 0 (Rmin w 1)).
  assert (A : 0 <= (p - q) * (w - p)). { unfold p, Rmin, Rmax. repeat destruct (Rle_dec _ _); try lra; nra. } assert (B : 0 <= (p - q) * (p - q)) by apply Rle_0_sqr. lra.
Qed.
Lemma svm_proj_range : forall z, 0 <= svm_proj 1 z <= 1.
Proof. intros z. rewrite svm_proj_clip. unfold Rmin, Rmax. repeat destruct (Rle_dec _ _); lra. Qed.
Lemma svm_tangent : forall a b, svm_val 1 a + - svm_proj 1 a * (b - a) <= svm_val 1 b.
Proof. intros a b. assert (H := svm_best b (svm_proj 1 a) (svm_proj_range a)). unfold svm_val at 1, svm_arg. replace ((1 - a) / 1) with (1 - a) by field. lra. Qed.
Lemma d_svm : forall z, derivable_pt_lim (svm_val 1) z (- svm_proj 1 z).
Proof.
  intros z. apply (d_from_tangent (svm_val 1) (fun z => - svm_proj 1 z) z 1); [lra|exact svm_tangent|]. intros b.
  assert (M : forall u v, u <= v -> svm_proj 1 u - svm_proj 1 v <= v - u) by (intros u v H; rewrite !svm_proj_clip; unfold Rmin, Rmax; repeat destruct (Rle_dec _ _); lra).
  destruct (Rle_dec z b) as [H|H]; [assert (X := M z b H)|assert (X := M b z ltac:(lra))]; nra.
Qed.
Lemma clip5_id : forall a, -5 <= a <= 5 -> clip5 a = a.
Proof. intros a H. unfold clip5, Rmin, Rmax. repeat destruct (Rle_dec _ _); lra. Qed.
Lemma d_exp_neg_exp : forall a, derivable_pt_lim (fun a => exp (- exp a)) a (exp (- exp a) * - exp a).
Proof. intros a. apply (derivable_pt_lim_comp (fun a => - exp a) exp); [apply derivable_pt_lim_opp, derivable_pt_lim_exp|apply derivable_pt_lim_exp]. Qed.
Lemma cloglog_prob : forall a, 0 < exp (- exp a) < 1.
Proof. intros a. split; [apply exp_pos|]. rewrite <- exp_0. apply exp_increasing. assert (P := exp_pos a). lra. Qed.

Lemma d_case : forall k n i a, fits k n -> regular_case k a -> derivable_pt_lim (val_case k i) a (grad_case k i a).
Proof.
  intros k n i a F R. destruct k as [y|s t|y|s t|y e|s e]; cbn [fits regular_case val_case grad_case] in *; unfold val_case.
  - apply (derive_sandwich _ a _ (/2)); [lra|]. intros b. assert (Q : 0 <= (b - a) * (b - a)) by apply Rle_0_sqr. apply Rabs_le. lra.
  - apply d_minus_linear. apply (derivable_pt_lim_scal log_exp1). unfold ratio1. destruct (Rle_dec a 100) as [H|H].
    + apply (derive_local (fun a => ln (1 + exp a)) _ a _ (100 - a)); [lra| |apply d_softplus]. intros b Hb. unfold log_exp1. destruct (Rle_dec b 100); auto. apply Rabs_def2 in Hb. lra.
    + apply (derive_local (fun a => a) _ a _ (a - 100)); [lra| |apply derivable_pt_lim_id]. intros b Hb. unfold log_exp1. destruct (Rle_dec b 100); auto. apply Rabs_def2 in Hb. lra.
  - apply d_minus_linear. apply derivable_pt_lim_exp.
  - assert (C := cloglog_prob a). rewrite clip5_id by lra. set (s0 := nth i s 0). set (t0 := nth i t 0).
    apply (derive_local (fun a => - (s0 * ln (1 - exp (- exp a)) + (t0 - s0) * - exp a)) _ a _ (Rmin (a + 5) (5 - a))); [apply Rmin_pos; lra| |].
    + intros b Hb. assert (L1 := Rmin_l (a + 5) (5 - a)). assert (L2 := Rmin_r (a + 5) (5 - a)). apply Rabs_def2 in Hb. rewrite clip5_id by lra. rewrite ln_exp. auto.
    + replace (- (exp (a - exp a) * (s0 / (1 - exp (- exp a)) - (t0 - s0) / exp (- exp a)))) with (- (s0 * (/ (1 - exp (- exp a)) * (0 - exp (- exp a) * - exp a)) + (t0 - s0) * - exp a)).
      * apply derivable_pt_lim_opp, derivable_pt_lim_plus.
        -- apply (derivable_pt_lim_scal (fun a => ln (1 - exp (- exp a)))). apply (derivable_pt_lim_comp (fun a => 1 - exp (- exp a)) ln); [|apply derivable_pt_lim_ln; lra].
           apply derivable_pt_lim_minus; [apply derivable_pt_lim_const|apply d_exp_neg_exp].
        -- apply (derivable_pt_lim_scal (fun a => - exp a)). apply derivable_pt_lim_opp, derivable_pt_lim_exp.
      * replace (exp (a - exp a)) with (exp a * exp (- exp a)) by (rewrite <- exp_plus; f_equal; ring). field. lra.
  - destruct F as [_ He]. set (y0 := nth i y 0). replace (huber_proj e (a - y0)) with (huber_proj e (a - y0) * (1 - 0)) by ring.
    apply (derivable_pt_lim_comp (fun a => a - y0) (huber_val e)); [apply derivable_pt_lim_minus; [apply derivable_pt_lim_id|apply derivable_pt_lim_const]|apply d_huber; auto].
  - subst e. set (u := 2 * nth i s 0 - 1). replace (- svm_proj 1 (u * a) * u) with (- svm_proj 1 (u * a) * (u * 1)) by ring.
    apply (derivable_pt_lim_comp (fun a => u * a) (svm_val 1)); [apply (derivable_pt_lim_scal (fun a => a)), derivable_pt_lim_id|apply d_svm].
Qed.

(** Gradient composed with subtraction of a fixed vector *)
Lemma vadd_vsub_swap : forall x d o : vec, length x = length d -> length x = length o -> vsub (vadd x d) o = vadd (vsub x o) d.
Proof. unfold vsub, vadd. induction x as [|a x IH]; intros [|b d] [|e o] H1 H2; cbn in *; try congruence; auto. f_equal; [ring|]. apply IH; congruence. Qed.
Lemma gradient_minus : forall n f o x g, off_fits n o -> length x = n -> is_gradient n f (minus x o) g -> is_gradient n (fun z => f (minus z o)) x g.
Proof.
  intros n f [o|] x g O Lx H; cbn in *; auto. destruct H as [L H]. split; auto. intros d Ld. apply (derive_ext (fun t => f (vadd (vsub x o) (vscal t d)))); [|apply H; auto].
  intros t. rewrite vadd_vsub_swap; auto; rewrite ?vscal_length; congruence.
Qed.
Theorem loss_gradient : forall k n c off cw x, fits k n -> off_fits n off -> length cw = n -> length x = n -> regular k (predictor k off x) ->
  is_gradient n (loss_func k c off cw) x (loss_grad k c off cw x).
Proof.
  intros k n c off cw x F O Lc Lx R. destruct (loss_grad_cases k n c off cw x F O Lc Lx) as [Lg Hg].
  assert (Le : length (predictor k off x) = n) by (destruct k; cbn [predictor]; auto; apply minus_length; auto).
  assert (G : is_gradient n (fun z => sum_over n (fun i => c * (nth i cw 0 * val_case k i (nth i z 0)))) (predictor k off x) (loss_grad k c off cw x)).
  { apply (sep_gradient n (fun i a => c * (nth i cw 0 * val_case k i a))); auto. intros i Hi. rewrite Hg by auto. apply (derivable_pt_lim_scal (fun a => nth i cw 0 * val_case k i a)). apply (derivable_pt_lim_scal (val_case k i)). apply (d_case k n); auto.
    unfold regular in R. rewrite Forall_forall in R. apply R. apply nth_In. lia. }
  assert (G' : is_gradient n (fun z => sum_over n (fun i => c * (nth i cw 0 * val_case k i (nth i (predictor k off z) 0)))) x (loss_grad k c off cw x)).
  { destruct k; try exact G; apply (gradient_minus n (fun z => sum_over n (fun i => c * (nth i cw 0 * val_case _ i (nth i z 0))))); auto. }
  apply (gradient_ext n (fun z => sum_over n (fun i => c * (nth i cw 0 * val_case k i (nth i (predictor k off z) 0))))); auto.
  intros z Lz. rewrite sum_over_scal. symmetry. apply loss_func_cases; auto.
Qed.
