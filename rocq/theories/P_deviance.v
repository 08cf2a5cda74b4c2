(** The constant that likelihoods add to their quadratic. *)
From Coq Require Import Reals ZArith List Arith Lra Lia Bool.
From Verif Require Import Vec Spec M_quad M_buffer M_affine M_loss SpecLoss SpecProbit P_quad P_sep P_buffer P_loss P_loss2 P_loss4 P_sklearn1 P_probit2 P_factory SpecDeviance.
Import ListNotations.
Local Open Scope R_scope.

Lemma ln_below : forall y, 0 < y -> ln y <= y - 1.
Proof. intros y H. destruct (Req_dec (ln y) 0) as [E|E]; [assert (y = 1) by (rewrite <- (exp_ln y H), E; apply exp_0); lra|]. assert (K := exp_ineq1 (ln y) E). rewrite (exp_ln y H) in K. lra. Qed.
Lemma ln_neg : forall y, 0 < y -> y < 1 -> ln y < 0.
Proof. intros y H H1. rewrite <- ln_1. apply ln_increasing; auto. Qed.
Lemma term_0 : forall t, 0 < t -> binomial_term 0 t = 0.
Proof. intros t H. unfold binomial_term. cbv zeta. destruct (Req_EM_T (0 / t) 0) as [|N]; auto. exfalso. apply N. field. lra. Qed.
Lemma term_1 : forall t, 0 < t -> binomial_term t t = 0.
Proof. intros t H. unfold binomial_term. cbv zeta. replace (t / t) with 1 by (field; lra). destruct (Req_EM_T 1 0); auto. destruct (Req_EM_T 1 1); auto. lra. Qed.
Lemma term_in : forall s t, 0 < s < t -> 0 < s / t < 1 /\ binomial_term s t = ln (s / t) * s + ln (1 - s / t) * (t - s).
Proof.
  intros s t H. assert (P : 0 < s / t < 1). { split; [apply Rdiv_lt_0_compat; lra|]. apply (Rmult_lt_reg_r t); [lra|]. unfold Rdiv. rewrite Rmult_assoc, Rinv_l by lra. lra. }
  split; auto. unfold binomial_term. cbv zeta. destruct (Req_EM_T (s / t) 0); [lra|]. destruct (Req_EM_T (s / t) 1); [lra|]. reflexivity.
Qed.
(** Gibbs' inequality *)
Lemma gibbs : forall s t r, 0 < t -> 0 <= s <= t -> 0 < r < 1 -> s * ln r + (t - s) * ln (1 - r) <= binomial_term s t.
Proof.
  intros s t r Ht Hs Hr. assert (L1 := ln_neg r ltac:(lra) ltac:(lra)). assert (L2 := ln_neg (1 - r) ltac:(lra) ltac:(lra)).
  destruct (Req_dec s 0) as [->|N0]; [rewrite term_0 by auto; assert (0 <= t * - ln (1 - r)) by (apply Rmult_le_pos; lra); lra|].
  destruct (Req_dec s t) as [->|N1]; [rewrite term_1 by auto; assert (0 <= t * - ln r) by (apply Rmult_le_pos; lra); lra|].
  destruct (term_in s t ltac:(lra)) as [P ->]. set (p := s / t) in *. assert (Es : s = t * p) by (unfold p; field; lra).
  assert (A := ln_below (r / p) ltac:(apply Rdiv_lt_0_compat; lra)). assert (B := ln_below ((1 - r) / (1 - p)) ltac:(apply Rdiv_lt_0_compat; lra)).
  unfold Rdiv in A, B. rewrite ln_mult, ln_Rinv in A by (try apply Rinv_0_lt_compat; lra). rewrite ln_mult, ln_Rinv in B by (try apply Rinv_0_lt_compat; lra).
  assert (A' : s * (ln r - ln p) <= t * r - s). { replace (t * r - s) with (s * (r * / p - 1)) by (rewrite Es; field; lra). apply Rmult_le_compat_l; lra. }
  assert (B' : (t - s) * (ln (1 - r) - ln (1 - p)) <= t * (1 - r) - (t - s)). { replace (t * (1 - r) - (t - s)) with ((t - s) * ((1 - r) * / (1 - p) - 1)) by (rewrite Es; field; lra). apply Rmult_le_compat_l; lra. }
  lra.
Qed.
Lemma lowest_link : forall (g f : R -> R) s t, 0 < t -> 0 <= s <= t -> (forall a, 0 < g a < 1) -> (forall r, 0 < r < 1 -> exists a, g a = r) -> (forall a, f a = - (s * ln (g a) + (t - s) * ln (1 - g a))) -> lowest f (- binomial_term s t).
Proof.
  intros g f s t Ht Hs G On F. split.
  - intros a. rewrite F. assert (K := gibbs s t (g a) Ht Hs (G a)). lra.
  - intros eps He. destruct (Req_dec s 0) as [->|N0]; [|destruct (Req_dec s t) as [->|N1]].
    + rewrite term_0 by auto. assert (E1 : 0 < exp (- (eps / (2 * t))) < 1) by (split; [apply exp_pos|rewrite <- exp_0; apply exp_increasing; assert (0 < eps / (2 * t)) by (apply Rdiv_lt_0_compat; lra); lra]).
      destruct (On (1 - exp (- (eps / (2 * t)))) ltac:(lra)) as [a Ea]. exists a. rewrite F, Ea. replace (1 - (1 - exp (- (eps / (2 * t))))) with (exp (- (eps / (2 * t)))) by ring. rewrite ln_exp. replace ((t - 0) * - (eps / (2 * t))) with (- (eps / 2)) by (field; lra). lra.
    + rewrite term_1 by auto. assert (E1 : 0 < exp (- (eps / (2 * t))) < 1) by (split; [apply exp_pos|rewrite <- exp_0; apply exp_increasing; assert (0 < eps / (2 * t)) by (apply Rdiv_lt_0_compat; lra); lra]).
      destruct (On (exp (- (eps / (2 * t)))) E1) as [a Ea]. exists a. rewrite F, Ea. rewrite ln_exp. replace (t * - (eps / (2 * t))) with (- (eps / 2)) by (field; lra). lra.
    + destruct (term_in s t ltac:(lra)) as [P Eb]. destruct (On (s / t) P) as [a Ea]. exists a. rewrite F, Ea, Eb. lra.
Qed.
Definition logit_link (a : R) : R := exp a / (1 + exp a).
Lemma logit_range : forall a, 0 < logit_link a < 1.
Proof. intros a. assert (P := exp_pos a). unfold logit_link. split; [apply Rdiv_lt_0_compat; lra|]. apply (Rmult_lt_reg_r (1 + exp a)); [lra|]. unfold Rdiv. rewrite Rmult_assoc, Rinv_l by lra. lra. Qed.
Lemma logit_onto : forall r, 0 < r < 1 -> exists a, logit_link a = r.
Proof. intros r H. exists (ln (r / (1 - r))). unfold logit_link. rewrite exp_ln by (apply Rdiv_lt_0_compat; lra). field. split; lra. Qed.
Lemma logit_case : forall s t a, t * ln (1 + exp a) - s * a = - (s * ln (logit_link a) + (t - s) * ln (1 - logit_link a)).
Proof.
  intros s t a. assert (P := exp_pos a). unfold logit_link. replace (1 - exp a / (1 + exp a)) with (/ (1 + exp a)) by (field; lra). unfold Rdiv. rewrite ln_mult, !ln_Rinv, ln_exp by (try apply Rinv_0_lt_compat; lra). ring.
Qed.
Definition clog_link (a : R) : R := 1 - exp (- exp a).
Lemma clog_range : forall a, 0 < clog_link a < 1.
Proof. intros a. assert (P := exp_pos a). unfold clog_link. assert (Q := exp_pos (- exp a)). assert (exp (- exp a) < 1) by (rewrite <- exp_0; apply exp_increasing; lra). lra. Qed.
Lemma clog_onto : forall r, 0 < r < 1 -> exists a, clog_link a = r.
Proof. intros r H. exists (ln (- ln (1 - r))). unfold clog_link. assert (L := ln_neg (1 - r) ltac:(lra) ltac:(lra)). rewrite exp_ln by lra. rewrite Ropp_involutive, exp_ln by lra. ring. Qed.
Lemma clog_case : forall s t a, - (s * ln (1 - exp (- exp a)) - (t - s) * exp a) = - (s * ln (clog_link a) + (t - s) * ln (1 - clog_link a)).
Proof. intros s t a. unfold clog_link. replace (1 - (1 - exp (- exp a))) with (exp (- exp a)) by ring. rewrite ln_exp. ring. Qed.

Definition term_of (k : family) (i : nat) : R := match k with Logistic s t | Cloglog s t => binomial_term (nth i s 0) (nth i t 0) | _ => 0 end.
Lemma lowest_case : forall k n i, binomial k -> fits k n -> legal_data k -> (i < n)%nat -> 0 < nth i (trials_of k) 0 -> lowest (doc_case k i) (- term_of k i).
Proof.
  intros k n i B F L Hi Ht. assert (Hs : forall s t, fits k n -> k = Logistic s t \/ k = Cloglog s t -> 0 <= nth i s 0 <= nth i t 0).
  { intros s t F' E. assert (F2 : Forall2 (fun a b => 0 <= a <= b) s t) by (destruct E as [-> | ->]; exact L). assert (Ls : length s = n) by (destruct E as [-> | ->]; apply F'). clear -F2 Ls Hi. revert n i Ls Hi.
    induction F2; intros n i Ls Hi; [cbn in Ls; lia|]. destruct i; cbn; auto. destruct n; [lia|]. apply (IHF2 n); cbn in Ls; lia. }
  destruct k as [y|s t|y|s t|y e|s e]; try contradiction; cbn [trials_of term_of] in *.
  - apply (lowest_link logit_link); auto using logit_range, logit_onto. intros a. cbn [doc_case]. apply logit_case.
  - apply (lowest_link clog_link); auto using clog_range, clog_onto. intros a. cbn [doc_case]. apply clog_case.
Qed.
Lemma vsum_zip : forall f (s t : vec) n, length s = n -> length t = n -> vsum (vzip f s t) = sum_over n (fun i => f (nth i s 0) (nth i t 0)).
Proof. intros f s t n Ls Lt. rewrite (vsum_index n) by (apply zl; auto). apply sum_over_ext. intros i Hi. rewrite (nth_zip0 f s t n); auto. Qed.
Lemma const_terms : forall k n c, binomial k -> fits k n -> dev_const k c = c * sum_over n (fun i => term_of k i).
Proof. intros [y|s t|y|s t|y e|s e] n c B F; try contradiction; destruct F as [Ls Lt]; cbn [dev_const term_of]; rewrite (vsum_zip _ _ _ n Ls Lt); ring. Qed.

Lemma built_value : forall h k n c off w l x, fits k n -> off_fits n off -> length x = n -> (forall r, w = Some r -> (r < length h)%nat) -> new_loss h k n c off None w = Ok l -> Forall (exact_case k) (predictor k off x) ->
  snd (loss_eval h l None x EvFunc) = Ok (VFunc (doc_loss k n c (match w with Some r => read h r | None => ones n end) (predictor k off x))) /\
  q_denot n (l_quad l) x = if adds_const k then dev_const k c else 0.
Proof.
  intros h k n c off w l x F O Lx Hw E Ex. destruct (new_loss_fields _ _ _ _ _ _ _ _ E) as (E1 & E2 & E3 & E4 & E5 & Hc).
  assert (Lw : forall r, w = Some r -> length (read h r) = n). { intros r ->. unfold new_loss in E. destruct (Rlt_dec c 0); [discriminate|]. destruct (negb (check_data k)); [discriminate|]. destruct (any_neg (read h r) || negb (Nat.eqb (length (read h r)) (cases k))) eqn:A; [discriminate|]. apply orb_false_iff in A. destruct A as [_ A]. apply negb_false_iff, Nat.eqb_eq in A. rewrite A. apply fits_cases. auto. }
  split.
  - unfold loss_eval. destruct (weigh h l None (length x)) as [h1 r] eqn:W. destruct (weigh_own h l (length x) h1 r W) as (Er & _); [rewrite E4; auto|rewrite E4, Lx; auto|]. cbn [snd smooth_value]. rewrite E1, E3, E5, Er, E4, Lx.
    assert (Lc : length (match w with Some r => read h r | None => ones n end) = n) by (destruct w as [r0|]; [auto|apply ones_length]). do 2 f_equal.
    change (match off with Some v => if all_zero v then None else Some v | None => None end) with (stored off). rewrite (loss_stored _ _ _ _ _ n Lx O). apply loss_value; auto.
  - unfold new_loss in E. destruct (Rlt_dec c 0); [discriminate|]. destruct (negb (check_data k)); [discriminate|]. destruct (match w with Some _ => _ | None => _ end); [discriminate|].
    assert (Z : q_denot n no_q x = 0) by (unfold q_denot, quad_fun, no_q; cbn [coef center linear_term constant_term fbcast]; rewrite const_vec_0, dot_zeros_l; lra).
    destruct (adds_const k).
    + destruct (shifted_denot n no_q (dev_const k c)) as (q1 & Q & _ & _ & D); [split; cbn; auto|left; auto|]. unfold shifted, no_q in Q. rewrite Q in E. cbn [rbind] in E. apply Ok_inj in E. subst l. cbn [l_quad]. rewrite D by auto. rewrite Z. ring.
    + cbn [rbind] in E. apply Ok_inj in E. subst l. exact Z.
Qed.
Lemma nth_ones : forall n i, (i < n)%nat -> nth i (ones n) 0 = 1.
Proof. intros n i H. unfold ones, const_vec. rewrite (nth_indep _ 0 1) by (rewrite repeat_length; lia). apply nth_repeat. Qed.
Theorem excess_weighted : forall h k n c off w l x, binomial k -> fits k n -> legal_data k -> (forall i, (i < n)%nat -> 0 < nth i (trials_of k) 0) -> off_fits n off -> length x = n -> (forall r, w = Some r -> (r < length h)%nat) ->
  new_loss h k n c off None w = Ok l -> Forall (exact_case k) (predictor k off x) ->
  exists m F, (forall i, (i < n)%nat -> lowest (doc_case k i) (m i)) /\ snd (loss_eval h l None x EvFunc) = Ok (VFunc F) /\
    F + q_denot n (l_quad l) x = c * sum_over n (fun i => nth i (match w with Some r => read h r | None => ones n end) 0 * doc_case k i (nth i (predictor k off x) 0) - m i).
Proof.
  intros h k n c off w l x B F L Ht O Lx Hw E Ex. destruct (built_value h k n c off w l x F O Lx Hw E Ex) as [V Q]. exists (fun i => - term_of k i). eexists. split; [intros i Hi; apply (lowest_case k n); auto|]. split; [exact V|].
  rewrite Q. replace (adds_const k) with true by (destruct k; auto; contradiction). rewrite (const_terms k n) by auto. unfold doc_loss. rewrite <- Rmult_plus_distr_l, <- sum_over_plus. f_equal. apply sum_over_ext. intros i Hi. unfold Rminus. rewrite Ropp_involutive. reflexivity.
Qed.
Theorem excess : forall h k n c off l x, binomial k -> fits k n -> legal_data k -> (forall i, (i < n)%nat -> 0 < nth i (trials_of k) 0) -> off_fits n off -> length x = n ->
  new_loss h k n c off None None = Ok l -> Forall (exact_case k) (predictor k off x) ->
  exists m F, (forall i, (i < n)%nat -> lowest (doc_case k i) (m i)) /\ snd (loss_eval h l None x EvFunc) = Ok (VFunc F) /\
    F + q_denot n (l_quad l) x = c * sum_over n (fun i => doc_case k i (nth i (predictor k off x) 0) - m i) /\ 0 <= F + q_denot n (l_quad l) x.
Proof.
  intros h k n c off l x B F L Ht O Lx E Ex. destruct (excess_weighted h k n c off None l x B F L Ht O Lx ltac:(discriminate) E Ex) as (m & v & M & V & D). exists m, v. split; auto. split; auto.
  assert (D' : v + q_denot n (l_quad l) x = c * sum_over n (fun i => doc_case k i (nth i (predictor k off x) 0) - m i)) by (rewrite D; f_equal; apply sum_over_ext; intros i Hi; rewrite nth_ones by auto; ring).
  split; auto. rewrite D'. destruct (new_loss_fields _ _ _ _ _ _ _ _ E) as (_ & _ & _ & _ & _ & Hc). apply Rmult_le_pos; auto. replace 0 with (sum_over n (fun _ => 0)).
  - apply sum_over_le. intros i Hi. destruct (M i Hi) as [A _]. apply Rge_le, Rge_minus, Rle_ge, A.
  - clear. unfold sum_over. induction (seq 0 n) as [|a l0 IH]; unfold vsum in *; cbn; auto. rewrite IH. ring.
Qed.
Theorem poisson_constant : forall c N, 0 < c -> (1 <= N)%nat -> exists l F, new_loss [] (Poisson [INR N]) 1 c None None None = Ok l /\ lowest (doc_case (Poisson [INR N]) 0) (INR N - INR N * ln (INR N)) /\
  snd (loss_eval [] l None [ln (INR N)] EvFunc) = Ok (VFunc F) /\ F + q_denot 1 (l_quad l) [ln (INR N)] = c * (INR N - INR N * ln (INR N)) - c * c * ((INR N - 1) * ln (INR N)).
Proof.
  intros c N Hc HN. assert (P : 1 <= INR N) by (apply (le_INR 1); auto). 
  assert (Fi : fits (Poisson [INR N]) 1) by reflexivity.
  assert (A : exists l, new_loss [] (Poisson [INR N]) 1 c None None None = Ok l).
  { unfold new_loss. destruct (Rlt_dec c 0); [lra|]. assert (Ck : check_data (Poisson [INR N]) = true).
    { cbn [check_data forallb any_neg existsb]. destruct (Rlt_dec (INR N) 0); [lra|]. unfold near_integer.
      assert (Ip : Int_part (INR N) = Z.of_nat N) by apply Int_part_INR. rewrite Ip, <- INR_IZR_INZ, Rminus_diag_eq by reflexivity. rewrite Rmin_left by lra.
      match goal with |- context [Rle_dec 0 ?b] => destruct (Rle_dec 0 b) as [|C] end; [reflexivity|]. exfalso. apply C. assert (0 < / 10 ^ 8) by (apply Rinv_0_lt_compat; lra). assert (0 <= / 10 ^ 5 * Rabs (INR N)) by (apply Rmult_le_pos; [left; apply Rinv_0_lt_compat; lra|apply Rabs_pos]). lra. }
    rewrite Ck. cbn [negb]. eexists. cbn. reflexivity. }
  destruct A as [l E]. assert (Ex : Forall (exact_case (Poisson [INR N])) (predictor (Poisson [INR N]) None [ln (INR N)])) by (repeat constructor).
  destruct (built_value [] (Poisson [INR N]) 1 c None None l [ln (INR N)] Fi Logic.I eq_refl ltac:(discriminate) E Ex) as [V Q]. exists l. eexists. split; [exact E|]. split; [|split; [exact V|]].
  - split.
    + intros a. cbn [doc_case nth]. assert (K := ln_below (exp a / INR N) ltac:(apply Rdiv_lt_0_compat; [apply exp_pos|lra])). unfold Rdiv in K. rewrite ln_mult, ln_Rinv, ln_exp in K by (try apply Rinv_0_lt_compat; try apply exp_pos; lra).
      assert (K' : INR N * (a - ln (INR N)) <= exp a - INR N). { replace (exp a - INR N) with (INR N * (exp a * / INR N - 1)) by (field; lra). apply Rmult_le_compat_l; lra. } lra.
    + intros eps He. exists (ln (INR N)). cbn [doc_case nth]. rewrite exp_ln by lra. lra.
  - rewrite Q. cbn [adds_const dev_const]. unfold doc_loss, sum_over, vsum. cbn. destruct (Req_EM_T (INR N) 0); [lra|]. rewrite exp_ln by lra. ring.
Qed.
Theorem poisson_negative : forall N, (3 <= N)%nat -> INR N - INR N * ln (INR N) - (INR N - 1) * ln (INR N) < 0.
Proof.
  intros N H. assert (P : INR 3 <= INR N) by (apply le_INR; auto). cbn in P. assert (L : 1 <= ln (INR N)). { rewrite <- (ln_exp 1). assert (E := exp_le_3). assert (Q := exp_pos 1). destruct (Req_dec (exp 1) (INR N)) as [->|]; [lra|]. left. apply ln_increasing; lra. }
  assert (0 <= (2 * INR N - 1) * (ln (INR N) - 1)) by (apply Rmult_le_pos; lra). lra.
Qed.
(** One binomial case with weight w, at its fitted proportion *)
Theorem weighted_fit : forall c w s t, 0 < c -> 0 <= w -> 0 < s < t -> s / t <= 1 / 2 -> exists l F a, new_loss [[w]] (Logistic [s] [t]) 1 c None None (Some 0%nat) = Ok l /\ (forall b, doc_case (Logistic [s] [t]) 0 a <= doc_case (Logistic [s] [t]) 0 b) /\
  snd (loss_eval [[w]] l None [a] EvFunc) = Ok (VFunc F) /\ (F + q_denot 1 (l_quad l) [a] = 0 <-> w = 1) /\ (w < 1 -> F + q_denot 1 (l_quad l) [a] < 0).
Proof.
  intros c w s t Hc Hw Hs Hp. destruct (term_in s t Hs) as [P Eb]. set (a := ln (s / t / (1 - s / t))).
  assert (Ga : logit_link a = s / t) by (unfold a, logit_link; rewrite exp_ln by (apply Rdiv_lt_0_compat; lra); field; repeat split; try lra).
  assert (Da : doc_case (Logistic [s] [t]) 0 a = - binomial_term s t) by (cbn [doc_case nth]; rewrite logit_case, Ga, Eb; ring).
  assert (Neg : binomial_term s t < 0). { rewrite Eb. assert (L1 := ln_neg (s / t) ltac:(lra) ltac:(lra)). assert (L2 := ln_neg (1 - s / t) ltac:(lra) ltac:(lra)). assert (0 < - ln (s / t) * s) by (apply Rmult_lt_0_compat; lra). assert (0 < - ln (1 - s / t) * (t - s)) by (apply Rmult_lt_0_compat; lra). lra. }
  assert (A0 : a <= 0). { unfold a. rewrite <- ln_1. assert (Q : s / t / (1 - s / t) <= 1). { apply (Rmult_le_reg_r (1 - s / t)); [lra|]. unfold Rdiv at 1. rewrite Rmult_assoc, Rinv_l by lra. lra. } destruct Q as [Q|Q]; [left; apply ln_increasing; auto; apply Rdiv_lt_0_compat; lra|rewrite Q; lra]. }
  assert (Fi : fits (Logistic [s] [t]) 1) by (split; reflexivity).
  assert (E : exists l, new_loss [[w]] (Logistic [s] [t]) 1 c None None (Some 0%nat) = Ok l).
  { unfold new_loss. destruct (Rlt_dec c 0); [lra|]. cbn [check_data any_neg vsub vzip existsb]. destruct (Rlt_dec (t - s) 0); [lra|]. destruct (Rlt_dec s 0); [lra|]. cbn. destruct (Rlt_dec w 0); [lra|]. cbn. eexists. reflexivity. }
  destruct E as [l E]. assert (Ex : Forall (exact_case (Logistic [s] [t])) (predictor (Logistic [s] [t]) None [a])) by (repeat constructor; cbn; lra).
  destruct (built_value [[w]] (Logistic [s] [t]) 1 c None (Some 0%nat) l [a] Fi Logic.I eq_refl) as [V Q]; auto; [intros r Er; injection Er as <-; cbn; lia|].
  exists l. eexists. exists a. split; [exact E|]. split; [intros b; rewrite Da; cbn [doc_case nth]; rewrite logit_case; assert (K := gibbs s t (logit_link b) ltac:(lra) ltac:(lra) (logit_range b)); lra|]. split; [exact V|].
  assert (Val : doc_loss (Logistic [s] [t]) 1 c (read [[w]] 0%nat) (predictor (Logistic [s] [t]) None [a]) + q_denot 1 (l_quad l) [a] = c * ((w - 1) * - binomial_term s t)).
  { rewrite Q. cbn [adds_const]. rewrite (const_terms _ 1) by (auto; exact Logic.I). unfold doc_loss, sum_over, vsum. cbn [map seq fold_right predictor minus nth read]. rewrite Da. cbn. ring. }
  rewrite Val. split.
  - split; [|intros ->; ring]. intros Z. apply Rmult_integral in Z. destruct Z as [Z|Z]; [lra|]. apply Rmult_integral in Z. destruct Z; lra.
  - intros W. assert (0 < c * ((1 - w) * - binomial_term s t)) by (apply Rmult_lt_0_compat; [lra|]; apply Rmult_lt_0_compat; lra). lra.
Qed.
