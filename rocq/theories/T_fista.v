(** C24-C28 and C63: the FISTA solver. *)
From Coq Require Import Reals List Lra Lia Arith Bool.
From Verif Require Import Vec Spec SpecConvex M_fista SpecFista P_quad P_calc P_fista P_fista2 P_fista3 P_fista4.
Import ListNotations.
Local Open Scope R_scope.

(** ** C24 *)
(** The recorded values: one per iteration, then the value at the returned coefficients. For arbitrary oracles. *)
Theorem C24_never_worse : forall loops fuel P C x0 st att s, fit loops fuel P C x0 st att = Ok s -> p_monotonicity P = true ->
  let h := history s ++ [s_obj s] in forall k, (1 < k)%nat -> (S k < length h)%nat -> not_worse (nth k h PInf) (nth (S k) h PInf).
Proof. exact fit_monotone. Qed.
Print Assumptions C24_never_worse.
(** The values are those of the coefficients: every iteration leaves coefficients and value alone, or replaces both. *)
Theorem C24_trace : forall loops fuel P C x0 st att s, fit loops fuel P C x0 st att = Ok s -> exists tr, explains C P x0 s tr.
Proof. intros. eapply fit_explained; eauto. Qed.
Print Assumptions C24_trace.
(** On a convex problem with exact oracles the first two iterations are no exception, no step is ever counted as bad,
    and the final value is the objective at the returned coefficients. *)
Theorem C24_exact_problem : forall n f h C P loops fuel x0 st att s, exact_problem n f h C -> steps_fit n P C -> length x0 = n -> good_start h C x0 -> 0 < first_step P st ->
  fit loops fuel P C x0 st att = Ok s ->
  s_bad s = 0%nat /\ (p_monotonicity P = true -> chain (history s ++ [s_obj s])) /\ s_obj s = objective f h (s_coefs s) /\ length (s_coefs s) = n.
Proof. intros n f h C P loops fuel x0 st att s EX SF. exact (exact_fit n f h C EX P SF loops fuel x0 st att s). Qed.
Print Assumptions C24_exact_problem.

(** ** C25 *)
Theorem C25_history : forall loops fuel P C x0 st att s, fit loops fuel P C x0 st att = Ok s ->
  (exists tr, explains C P x0 s tr) /\ length (history s) = s_it s /\ (s_it s <= max_of P)%nat /\ (Nat.min (min_of P) (max_of P) <= s_it s \/ 3 < s_bad s)%nat.
Proof. exact fit_explained. Qed.
Print Assumptions C25_history.
(** Why a run ends: max_its, too many bad steps, or the tolerance test on the last proposal (kept as the working point). *)
Theorem C25_stop_reason : forall loops fuel P C x0 st att s, fit loops fuel P C x0 st att = Ok s ->
  s_it s = max_of P \/ (3 < s_bad s)%nat \/ ((min_of P <= s_it s)%nat /\ close_enough C P s (s_working s)).
Proof. exact fit_stop_reason. Qed.
Print Assumptions C25_stop_reason.
(** [loops] bounds the passes of the while loop in the model; max_its of them are always enough. *)
Theorem C25_cap : forall loops fuel P C x0 st att, (max_of P <= loops)%nat -> fit loops fuel P C x0 st att = fit (max_of P) fuel P C x0 st att.
Proof. exact fit_loop_bound. Qed.
Print Assumptions C25_cap.
Theorem C25_terminates_without_backtracking : forall loops fuel P C x0 st att, p_backtrack P = false -> c_lipschitz C <> 0 -> (max_of P <= loops)%nat -> exists s, fit loops fuel P C x0 st att = Ok s.
Proof. exact fit_terminates_fixed. Qed.
Print Assumptions C25_terminates_without_backtracking.
(** With backtracking, when the gradient is Lipschitz. *)
Theorem C25_terminates : forall n f h C P L x0 st att, exact_problem n f h C -> steps_fit n P C -> 0 < L -> lipschitz_map n (c_grad C) L -> length x0 = n -> good_start h C x0 -> 0 < first_step P st ->
  exists fuel0, forall loops fuel, (max_of P <= loops)%nat -> (fuel0 <= fuel)%nat -> exists s, fit loops fuel P C x0 st att = Ok s.
Proof. intros n f h C P L x0 st att EX SF HL Lip. exact (fit_terminates n f h C EX P SF L HL Lip x0 st att). Qed.
Print Assumptions C25_terminates.

(** ** C27 *)
Theorem C27_verified_step : forall fuel C it w step att p st a, 0 < step -> backtrack fuel C it w step att = Ok (p, st, a) ->
  0 < st <= step * alpha /\ p = c_prox C (1 / st) w (c_grad C w) /\ step_ok C w (c_grad C w) p st = true.
Proof. exact backtrack_spec. Qed.
Print Assumptions C27_verified_step.
(** Whichever of its two tests it used, the accepted step satisfies the quadratic upper bound. *)
Theorem C27_upper_bound : forall n f C w p st, convex_on n f -> gradient_of n f (c_grad C) -> (forall x, length x = n -> c_smooth C x = Fin (f x)) ->
  length w = n -> length p = n -> step_ok C w (c_grad C w) p st = true -> model_bound f (c_grad C w) w p st.
Proof. exact step_ok_bound. Qed.
Print Assumptions C27_upper_bound.
Theorem C27_ends_partial : forall n f h C L w p st, exact_problem n f h C -> 0 < L -> lipschitz_map n (c_grad C) L -> length w = n -> length p = n -> 0 < st <= / (2 * L) ->
  step_ok C w (c_grad C w) p st = true.
Proof. intros n f h C L w p st EX HL Lip. exact (step_ok_small n f h C EX L HL Lip w p st). Qed.
Print Assumptions C27_ends_partial.
Theorem C27_terminates : forall n f h C L w st att it, exact_problem n f h C -> 0 < L -> lipschitz_map n (c_grad C) L -> length w = n -> 0 < st ->
  exists fuel0 r, forall fuel, (fuel0 <= fuel)%nat -> backtrack fuel C it w st att = Ok r.
Proof. intros n f h C L w st att it EX HL Lip. exact (backtrack_ends n f h C EX L HL Lip w st att it). Qed.
Print Assumptions C27_terminates.
Theorem C27_step_lower_bound : forall n f h C L fuel w st att p st' a, exact_problem n f h C -> 0 < L -> lipschitz_map n (c_grad C) L -> length w = n -> 0 < st ->
  backtrack_loop fuel C w (c_grad C w) st att = Ok (p, st', a) -> Rmin st (/ (2 * L) / alpha) <= st' /\ st' <= st.
Proof. intros n f h C L fuel w st att p st' a EX HL Lip. exact (backtrack_loop_lower n f h C EX L HL Lip fuel w st att p st' a). Qed.
Print Assumptions C27_step_lower_bound.

(** ** C28 *)
Theorem C28_fixed_point_is_minimizer : forall n f h C x L, exact_problem n f h C -> length x = n -> 0 < L -> c_prox C L x (c_grad C x) = x -> is_argmin n (objective f h) x.
Proof. intros n f h C x L EX. exact (fixed_is_min n f h C EX x L). Qed.
Print Assumptions C28_fixed_point_is_minimizer.
Theorem C28_minimizer_is_fixed_point : forall n f h C x L, exact_problem n f h C -> length x = n -> 0 < L -> lipschitz_map n (c_grad C) L -> is_argmin n (objective f h) x -> c_prox C L x (c_grad C x) = x.
Proof.
  intros n f h C x L EX Lx HL Lip M. assert (E : L = 1 / (1 / L)) by (field; lra). rewrite E. apply (min_is_fixed n f h C EX); auto; [apply Rdiv_lt_0_compat; lra|].
  replace (/ (2 * (1 / L))) with (L / 2) by (field; lra). apply (descent_lemma n f (c_grad C)); auto; [apply EX|]. apply (prox_length n f h C EX); auto. apply Rdiv_lt_0_compat; lra.
Qed.
Print Assumptions C28_minimizer_is_fixed_point.
(** A proximal-gradient step never increases the objective, and decreases it in proportion to the square of the move. *)
Theorem C28_step_descends : forall n f h C w st p r, exact_problem n f h C -> length w = n -> 0 < st -> p = c_prox C (1 / st) w (c_grad C w) ->
  model_bound f (c_grad C w) w p st -> objective f h w = Fin r -> exists r', objective f h p = Fin r' /\ r' + / (2 * st) * sqn (vsub p w) <= r.
Proof. intros n f h C w st p r EX. exact (prox_step_descends n f h C EX w st p r). Qed.
Print Assumptions C28_step_descends.

(** ** C63 *)
(** The O(1/k^2) rate of the accelerated method, without restarts, while the step sizes do not grow (they are fixed, or
    backtracking is used for at most 99 iterations and starts with attempt_decrease off). [s_it] counts completed iterations. *)
Theorem C63_rate_partial : forall n f h C P z Fz loops fuel x0 st att s, exact_problem n f h C -> steps_fit n P C -> p_monotonicity P = false -> p_restart P = None ->
  length z = n -> objective f h z = Fin Fz -> (forall x, length x = n -> ext_le (Fin Fz) (objective f h x)) ->
  length x0 = n -> good_start h C x0 -> 0 < first_step P st -> p_backtrack P = false \/ (att = false /\ (max_of P <= 99)%nat) -> fit loops fuel P C x0 st att = Ok s -> s_it s <> 0%nat ->
  exists Fs, objective f h (s_coefs s) = Fin Fs /\ Fs - Fz <= 2 * sqn (vsub x0 z) / (s_step s * ((INR (s_it s) + 1) * (INR (s_it s) + 1))) /\ (p_backtrack P = false -> s_step s = 1 / c_lipschitz C).
Proof. intros n f h C P z Fz loops fuel x0 st att s EX SF Mon Res Lz Ez Min. exact (fista_rate n f h C EX P z Fz SF Mon Res Lz Ez Min loops fuel x0 st att s). Qed.
Print Assumptions C63_rate_partial.
(** With steps rejected for increasing the objective and a fixed step size: the rate holds from the last rejection on, that is from the iterate [j] where the run
    last stayed put (or from the start). *)
Theorem C63_since_rejection_partial : forall n f h C P z Fz loops fuel x0 st att s, exact_problem n f h C -> 0 < c_lipschitz C -> lipschitz_map n (c_grad C) (c_lipschitz C) -> p_backtrack P = false -> p_restart P = None ->
  length z = n -> objective f h z = Fin Fz -> (forall x, length x = n -> ext_le (Fin Fz) (objective f h x)) ->
  length x0 = n -> good_start h C x0 -> 0 < first_step P st -> fit loops fuel P C x0 st att = Ok s ->
  exists tr j, explains C P x0 s tr /\ (j <= s_it s)%nat /\ (j = 0%nat \/ forall d, nth (j - 1) (full_trace s tr) d = nth j (full_trace s tr) d) /\
    (j <> s_it s -> exists Fs, objective f h (s_coefs s) = Fin Fs /\ forall d, Fs - Fz <= 2 * c_lipschitz C * sqn (vsub (fst (nth j (full_trace s tr) d)) z) / ((INR (s_it s - j) + 1) * (INR (s_it s - j) + 1))).
Proof. intros n f h C P z Fz loops fuel x0 st att s EX HL Lip Hb Res Lz Ez Min. exact (rate_since_rejection n f h C P z Fz EX HL Lip Hb Res Lz Ez Min loops fuel x0 st att s). Qed.
Print Assumptions C63_since_rejection_partial.
(** In general, with steps of any size and rejections: [l] lists the states at the start of each pass and [q] is the last of them; [j] is the pass where the run last stayed put (0 if none was rejected).
    The bound is that of the rate times the total growth of the step sizes since. *)
Theorem C63_growing_partial : forall n f h C P z Fz loops fuel x0 st att s, exact_problem n f h C -> steps_fit n P C -> p_restart P = None ->
  length z = n -> objective f h z = Fin Fz -> (forall x, length x = n -> ext_le (Fin Fz) (objective f h x)) ->
  length x0 = n -> good_start h C x0 -> 0 < first_step P st -> fit loops fuel P C x0 st att = Ok s ->
  exists l j q, length l = S (s_it s) /\ passes fuel P C (fista_start P C x0 st att) l /\ (forall d, nth (s_it s) l d = q) /\ s_coefs s = s_coefs q /\ s_it q = s_it s /\
    (j <= s_it s)%nat /\ (p_monotonicity P = false -> j = 0%nat) /\ (forall d, j = 0%nat \/ (s_coefs (nth j l d) = s_coefs (nth (j - 1) l d) /\ s_working (nth j l d) = s_coefs (nth j l d))) /\
    (j <> s_it s -> exists Fs, objective f h (s_coefs s) = Fin Fs /\
      forall d, Fs - Fz <= 2 * (sqn (vsub (s_coefs (nth j l d)) z) * growth (map s_step (skipn (S j) l))) / (s_step q * ((INR (s_it s - j) + 1) * (INR (s_it s - j) + 1)))).
Proof. intros n f h C P z Fz loops fuel x0 st att s EX SF Res Lz Ez Min. exact (rate_growing n f h C P z Fz EX SF Res Lz Ez Min loops fuel x0 st att s). Qed.
Print Assumptions C63_growing_partial.
(** With backtracking and a Lipschitz gradient, for any number of iterations: the rate, times 1.1 for every pass that began by trying a larger step. *)
Theorem C63_backtracking_partial : forall n f h C P z Fz L loops fuel x0 st att s, exact_problem n f h C -> p_backtrack P = true -> p_restart P = None -> 0 < L -> lipschitz_map n (c_grad C) L ->
  length z = n -> objective f h z = Fin Fz -> (forall x, length x = n -> ext_le (Fin Fz) (objective f h x)) ->
  length x0 = n -> good_start h C x0 -> 0 < first_step P st -> p_monotonicity P = false -> fit loops fuel P C x0 st att = Ok s -> s_it s <> 0%nat ->
  exists l Fs, length l = S (s_it s) /\ passes fuel P C (fista_start P C x0 st att) l /\ objective f h (s_coefs s) = Fin Fs /\
    Fs - Fz <= 2 * sqn (vsub x0 z) * (11 / 10) ^ length (filter tries_more (removelast l)) / (Rmin (first_step P st) (/ (2 * L * (11 / 10))) * ((INR (s_it s) + 1) * (INR (s_it s) + 1))).
Proof. intros n f h C P z Fz L loops fuel x0 st att s EX Hb Res HL Lip Lz Ez Min. exact (rate_backtracking n f h C P z Fz L EX Hb Res HL Lip Lz Ez Min loops fuel x0 st att s). Qed.
Print Assumptions C63_backtracking_partial.

(** ** A concrete problem: minimize |x|^2/2 over R^n, with the Lipschitz constant L (any L >= 1 will do). *)
Definition half_sq (x : vec) : R := / 2 * sqn x.
Definition ridge (L : R) : composite := mk_composite (fun x => Fin (half_sq x)) (fun x => x) (fun _ _ => Fin 0) (fun l w g => vsub w (vscal (/ l) g)) L.
Lemma half_between : forall n x y t, length x = n -> length y = n -> half_sq (between x y t) = half_sq x + t * dot x (vsub y x) + t * t * half_sq (vsub y x).
Proof. intros n x y t Lx Ly. unfold half_sq, between. rewrite sqn_add, sqn_scal, dot_scal_r by vlen. lra. Qed.
Lemma half_gradient : forall n, gradient_of n half_sq (fun x => x).
Proof.
  intros n x Lx. split; auto. intros d Ld. apply derive_ext with (fun t => half_sq x + (t * dot x d + t * t * half_sq d)).
  - intros t. unfold half_sq. rewrite sqn_add, sqn_scal, dot_scal_r by vlen. lra.
  - pose proof (derivable_pt_lim_plus (fct_cte (half_sq x)) (fun t => t * dot x d + t * t * half_sq d) 0 _ _ (derivable_pt_lim_const _ _) (derive_quad _ _ _)) as H.
    replace (0 + (dot x d + 2 * 0 * half_sq d)) with (dot x d) in H by ring. exact H.
Qed.
Lemma ridge_exact : forall n L, exact_problem n half_sq (fun _ => Fin 0) (ridge L).
Proof.
  intros n L. split; cbn; auto.
  - intros x y t Lx Ly Ht. rewrite (half_between n) by auto. rewrite dot_sub_r by congruence. unfold half_sq. rewrite (sqn_sub y x) by congruence. rewrite (dot_comm y x). assert (Q := sqn_nonneg (vsub y x)). rewrite sqn_sub, (dot_comm y x) in Q by congruence.
    assert (0 <= t * (1 - t)) by nra. unfold sqn in *. nra.
  - apply half_gradient.
  - intros x y t a b _ _ _ H1 H2. injection H1 as <-. injection H2 as <-. simpl. lra.
  - intros l w g Hl Lw Lg. split; [vlen|]. split; [eexists; reflexivity|]. intros v Lv. simpl. rewrite !sqn_sub, !dot_sub_r, !dot_sub_l, !dot_scal_r, !dot_scal_l, sqn_scal by vlen.
    assert (Q := sqn_nonneg (vadd (vsub v w) (vscal (/ l) g))). rewrite sqn_add, sqn_sub, sqn_scal, dot_scal_r, dot_sub_l in Q by vlen. rewrite (dot_comm v w) in Q. rewrite (dot_comm g v), (dot_comm g w), (dot_comm v w). unfold sqn in *.
    set (vv := dot v v) in *. set (ww := dot w w) in *. set (gg := dot g g) in *. set (vg := dot v g) in *. set (wg := dot w g) in *. set (wv := dot w v) in *.
    assert (K : l / 2 * (vv + ww - 2 * wv + / l * / l * gg + 2 * (/ l * (vg - wg))) = l / 2 * (vv + ww - 2 * wv) + / l / 2 * gg + (vg - wg)) by (field; lra).
    assert (K2 : l / 2 * (ww + / l * / l * gg - 2 * (/ l * wg) + ww - 2 * (ww - / l * wg)) + (wg - / l * gg) = wg - / l / 2 * gg) by (field; lra).
    nra.
Qed.
Lemma ridge_lipschitz : forall n, lipschitz_map n (fun x => x) 1.
Proof. intros n x y _ _. lra. Qed.
Definition plain (backtracking momentum : bool) (its : nat) : params := mk_params None None (Some its) momentum 1 None false false backtracking.
Example C25_instance : exists fuel0, forall loops fuel, (50 <= loops)%nat -> (fuel0 <= fuel)%nat -> exists s, fit loops fuel (plain true true 50) (ridge 1) [1; -2; 3] None false = Ok s.
Proof. apply (C25_terminates 3 half_sq (fun _ => Fin 0) (ridge 1) (plain true true 50) 1); auto using ridge_exact; [left; auto|lra|apply ridge_lipschitz|reflexivity|cbn; lra]. Qed.
Example C28_instance : is_argmin 2 (objective half_sq (fun _ => Fin 0)) [0; 0].
Proof. apply (C28_fixed_point_is_minimizer 2 half_sq (fun _ => Fin 0) (ridge 1) [0; 0] 1); auto using ridge_exact; [lra|]. cbn. repeat f_equal; lra. Qed.
Example C63_instance : forall s, fit 50 0 (plain false true 50) (ridge 1) [1; -2; 3] None false = Ok s -> s_it s <> 0%nat ->
  exists Fs, objective half_sq (fun _ => Fin 0) (s_coefs s) = Fin Fs /\ Fs - 0 <= 2 * 14 / (s_step s * ((INR (s_it s) + 1) * (INR (s_it s) + 1))) /\ s_step s = 1.
Proof.
  intros s E Hi. assert (Hz : objective half_sq (fun _ => Fin 0) [0; 0; 0] = Fin 0) by (unfold objective, half_sq, sqn, dot, vsum; cbn; f_equal; lra).
  destruct (C63_rate_partial 3 half_sq (fun _ => Fin 0) (ridge 1) (plain false true 50) [0; 0; 0] 0 50 0 [1; -2; 3] None false s) as (Fs & H1 & H2 & H3); auto using ridge_exact.
  - right. cbn. split; [lra|apply ridge_lipschitz].
  - intros x Lx. unfold objective. simpl. unfold half_sq. assert (Q := sqn_nonneg x). lra.
  - reflexivity.
  - cbn. lra.
  - exists Fs. split; auto. replace (sqn (vsub [1; -2; 3] [0; 0; 0])) with 14 in H2 by (unfold sqn, dot, vsum; cbn; lra). split; auto. rewrite H3 by auto. cbn. lra.
Qed.

Example C63_backtracking_instance : forall loops fuel s, fit loops fuel (plain true true 1000) (ridge 1) [1; -2; 3] None false = Ok s -> s_it s <> 0%nat ->
  exists l Fs, length l = S (s_it s) /\ objective half_sq (fun _ => Fin 0) (s_coefs s) = Fin Fs /\ Fs <= 2 * 14 * (11 / 10) ^ length (filter tries_more (removelast l)) / (Rmin 1 (/ (2 * 1 * (11 / 10))) * ((INR (s_it s) + 1) * (INR (s_it s) + 1))).
Proof.
  intros loops fuel s E Hi. assert (Hz : objective half_sq (fun _ => Fin 0) [0; 0; 0] = Fin 0) by (unfold objective, half_sq, sqn, dot, vsum; cbn; f_equal; lra).
  destruct (C63_backtracking_partial 3 half_sq (fun _ => Fin 0) (ridge 1) (plain true true 1000) [0; 0; 0] 0 1 loops fuel [1; -2; 3] None false s) as (l & Fs & H1 & _ & H2 & H3); auto using ridge_exact; try (cbn; lra).
  - apply ridge_lipschitz.
  - intros x Lx. unfold objective. simpl. unfold half_sq. assert (Q := sqn_nonneg x). lra.
  - reflexivity.
  - exists l, Fs. split; auto. split; auto. replace (sqn (vsub [1; -2; 3] [0; 0; 0])) with 14 in H3 by (unfold sqn, dot, vsum; cbn; lra). change (first_step (plain true true 1000) None) with 1 in H3. lra.
Qed.
Example C63_since_instance : forall s, fit 50 0 (mk_params None None (Some 50%nat) true 1 None false true false) (ridge 1) [1; -2; 3] None false = Ok s ->
  exists tr j, explains (ridge 1) (mk_params None None (Some 50%nat) true 1 None false true false) [1; -2; 3] s tr /\ (j <= s_it s)%nat.
Proof.
  intros s E. assert (Hz : objective half_sq (fun _ => Fin 0) [0; 0; 0] = Fin 0) by (unfold objective, half_sq, sqn, dot, vsum; cbn; f_equal; lra).
  destruct (C63_since_rejection_partial 3 half_sq (fun _ => Fin 0) (ridge 1) (mk_params None None (Some 50%nat) true 1 None false true false) [0; 0; 0] 0 50 0 [1; -2; 3] None false s) as (tr & j & H1 & H2 & _); auto using ridge_exact; try (cbn; lra).
  - apply ridge_lipschitz.
  - intros x Lx. unfold objective. simpl. unfold half_sq. assert (Q := sqn_nonneg x). lra.
  - reflexivity.
  - eauto.
Qed.

(** ** C26 *)
(** The argument FISTA of fit() changes nothing ... *)
Theorem C26_flag_ignored : forall loops fuel P C x0 st att b,
  fit loops fuel P C x0 st att = fit loops fuel (mk_params (p_tol P) (p_min_its P) (p_max_its P) b (p_start_step P) (p_restart P) (p_coef_stop P) (p_monotonicity P) (p_backtrack P)) C x0 st att.
Proof.
  assert (K : forall loops fuel P C s b, fista_loop loops fuel P C s = fista_loop loops fuel (mk_params (p_tol P) (p_min_its P) (p_max_its P) b (p_start_step P) (p_restart P) (p_coef_stop P) (p_monotonicity P) (p_backtrack P)) C s).
  { induction loops as [|loops IH]; intros fuel P C s b; [reflexivity|]. cbn [fista_loop].
    set (P' := mk_params (p_tol P) (p_min_its P) (p_max_its P) b (p_start_step P) (p_restart P) (p_coef_stop P) (p_monotonicity P) (p_backtrack P)).
    assert (Ei : iterate fuel P' C s = iterate fuel P C s) by reflexivity. assert (Em : max_of P' = max_of P) by reflexivity. rewrite Ei, Em.
    destruct (Nat.ltb _ _); auto. destruct (iterate fuel P C s) as [[s1|s1]|e]; auto. cbn [rbind]. apply IH. }
  intros. apply K.
Qed.
Print Assumptions C26_flag_ignored.
(** ... and momentum is used: with FISTA=False, minimizing x^2/2 from 1 with step 1/2, after two iterations the working point is not the current point. *)
Theorem C26_refuted : exists P C x0 s, p_FISTA P = false /\ fit 2 0 P C x0 None false = Ok s /\ s_working s <> s_coefs s.
Proof.
  exists (plain false false 2), (ridge 2), [1]. 
  assert (St : forall s, (s_it s < 2)%nat -> s_weight s = 1 \/ s_weight s <> 1 -> exists s', iterate 0 (plain false false 2) (ridge 2) s = Ok (Continue s') /\ s_it s' = (s_it s + 1)%nat /\
     s_coefs s' = c_prox (ridge 2) 2 (s_working s) (s_working s) /\ s_working s' = vadd (s_coefs s') (vscal ((s_weight s - 1) / (/ 2 * (1 + sqrt (1 + 4 * (s_weight s * s_weight s))))) (vsub (s_coefs s') (s_coefs s))) /\
     s_weight s' = / 2 * (1 + sqrt (1 + 4 * (s_weight s * s_weight s)))).
  { intros s Hs _. unfold iterate. cbn [p_backtrack plain restart_now p_restart]. cbn [c_lipschitz ridge]. destruct (Req_EM_T 2 0); [exfalso; lra|]. cbn [rbind]. 
    replace (Nat.leb (min_of (plain false false 2)) (s_it s)) with false by (symmetry; apply Nat.leb_gt; cbn; lia). cbn [andb]. cbn [update_working orb p_FISTA p_monotonicity plain]. rewrite !andb_false_r.
    eexists. split; [reflexivity|]. cbn. repeat split; auto. }
  destruct (St (fista_start (plain false false 2) (ridge 2) [1] None false)) as (s1 & E1 & I1 & C1 & W1 & T1); [cbn; lia|left; reflexivity|].
  destruct (St s1) as (s2 & E2 & I2 & C2 & W2 & T2); [rewrite I1; cbn; lia|destruct (Req_EM_T (s_weight s1) 1); auto|].
  exists s2. split; auto. split.
  - unfold fit. cbn [fista_loop]. rewrite E1. cbn [rbind s_it fista_start]. change (Nat.ltb 0 (max_of (plain false false 2))) with true. cbv iota. rewrite I1. cbn [s_it fista_start Nat.add]. change (Nat.ltb 1 (max_of (plain false false 2))) with true. cbv iota. rewrite E2. cbn [rbind].
    rewrite I2, I1. reflexivity.
  - rewrite W2, C2. assert (c1 : s_coefs s1 = [1 / 2]) by (rewrite C1; cbn; f_equal; lra). assert (w1 : s_working s1 = [1 / 2]).
    { rewrite W1, c1. cbn [fista_start s_weight s_coefs]. unfold Rminus, Rdiv. cbn. f_equal. ring. }
    rewrite w1, c1. cbn [fista_start s_weight] in T1. cbn. intros H. injection H as H.
    assert (S5 : 1 < sqrt (1 + 4 * (1 * 1))). { rewrite <- sqrt_1 at 1. apply sqrt_lt_1; lra. }
    assert (T : 1 < s_weight s1) by (rewrite T1; lra). set (t := s_weight s1) in *. assert (Q : 0 < (t - 1) / (/ 2 * (1 + sqrt (1 + 4 * (t * t))))).
    { apply Rdiv_lt_0_compat; [lra|]. assert (0 <= sqrt (1 + 4 * (t * t))) by apply sqrt_pos. lra. }
    nra.
Qed.
Print Assumptions C26_refuted.

(** ** C27: a step below 1/L need not pass. Near the minimum the relative change is tiny and the stricter gradient test is used, which needs step <= 1/(2L). *)
Theorem C27_ends_refuted : exists w st, let p := c_prox (ridge 1) (1 / st) w w in 0 < st < 1 /\ step_ok (ridge 1) w (c_grad (ridge 1) w) p st = false.
Proof.
  exists [/ 10 ^ 6], (9 / 10). cbv zeta. split; [lra|]. unfold step_ok. cbn [c_smooth ridge c_prox c_grad]. cbv zeta.
  set (e := / 10 ^ 6). assert (He : 0 < e) by (apply Rinv_0_lt_compat, pow_lt; lra).
  assert (Hp : vsub [e] (vscal (/ (1 / (9 / 10))) [e]) = [e / 10]). { cbn. f_equal. field. } rewrite Hp.
  assert (H1 : half_sq [e / 10] = e * e / 200) by (unfold half_sq, sqn, dot, vsum; cbn; field). assert (H2 : half_sq [e] = e * e / 2) by (unfold half_sq, sqn, dot, vsum; cbn; field).
  rewrite H1, H2, !norm_sq. assert (Hd : vsub [e / 10] [e] = [- (9 / 10) * e]) by (cbn; f_equal; field). assert (Hd2 : vsub [e] [e / 10] = [9 / 10 * e]) by (cbn; f_equal; field). rewrite Hd, Hd2.
  assert (Hs : sqn [- (9 / 10) * e] = 81 / 100 * (e * e)) by (unfold sqn, dot, vsum; cbn; field). assert (Hdd : dot [- (9 / 10) * e] [9 / 10 * e] = - (81 / 100 * (e * e))) by (unfold dot, vsum; cbn; field). rewrite Hs, Hdd.
  assert (Hee : e * e = / 10 ^ 12) by (unfold e; field). assert (Hpos : 0 < e * e) by nra.
  destruct (Rlt_dec (/ 10 ^ 10) (Rabs (e * e / 200 - e * e / 2) / Rmax 1 (e * e / 200))) as [H|_].
  - exfalso. rewrite Rmax_left in H by (rewrite Hee; lra). rewrite Rabs_left in H by lra. rewrite Hee in H. lra.
  - destruct (Rle_dec _ _) as [H|]; auto. exfalso. rewrite Rabs_left in H by lra. lra.
Qed.
Print Assumptions C27_ends_refuted.
