(** C104: restarts of the FISTA solver. *)
From Coq Require Import Reals List Lra Lia Arith Bool.
From Verif Require Import Vec Spec SpecConvex M_fista SpecFista SpecRestart P_restart T_fista.
Import ListNotations.
Local Open Scope R_scope.

(** ** C104 *)
(** [l] lists the states at the start of the iterations of a run, so that the iteration numbered S k leads from [nth k l] to [nth (S k) l].
    With restart=r, the iterations r, 2r, 3r, ... step from the coefficients and the others from the extrapolated point; an iteration that is refused
    (monotonicity_restart) changes nothing else. For arbitrary problems, with or without backtracking. *)
Theorem C104_points_partial : forall fuel P C x0 st att l r, (0 < r)%nat -> p_restart P = Some r -> passes fuel P C (fista_start P C x0 st att) l ->
  forall k d, (S k < length l)%nat -> let s := nth k l d in let s' := nth (S k) l d in
  (refused s s' /\ p_monotonicity P = true) \/ (due r (S k) /\ moved C (s_coefs s) s s') \/ (~ due r (S k) /\ moved C (s_working s) s s').
Proof. exact restart_passes. Qed.
Print Assumptions C104_points_partial.
(** The documented restart of the weights never happens: whatever the argument restart, the weights are those of Nesterov's sequence, growing by more than a
    half per iteration; a weight is set back to 1 only by an iteration that was refused. *)
Theorem C104_weights_refuted : forall fuel P C x0 st att l, passes fuel P C (fista_start P C x0 st att) l ->
  (forall k d, (k < length l)%nat -> p_monotonicity P = false -> s_weight (nth k l d) = nesterov k /\ 1 + INR k / 2 <= s_weight (nth k l d)) /\
  (forall k d, (S k < length l)%nat -> s_weight (nth (S k) l d) = 1 -> refused (nth k l d) (nth (S k) l d)).
Proof. exact restart_weights. Qed.
Print Assumptions C104_weights_refuted.
(** With restart=1 (or 0) the extrapolated points are never used: on convex problems with exact oracles every iteration is the proximal gradient step from the
    coefficients, none is refused, the objective never increases, and after the steps t_1, ..., t_m the excess over any point z is at most |x0 - z|^2 / (2 (t_1 + ... + t_m)). *)
Theorem C104_plain_partial : forall n f h C P, exact_problem n f h C -> steps_fit n P C -> p_restart P = Some 1%nat \/ p_restart P = Some 0%nat ->
  forall fuel x0 st att l, length x0 = n -> good_start h C x0 -> 0 < first_step P st -> passes fuel P C (fista_start P C x0 st att) l ->
  forall k d, (S k < length l)%nat -> let s := nth k l d in let s' := nth (S k) l d in
  0 < s_step s' /\ s_coefs s' = gradient_step C (s_step s') (s_coefs s) /\ (p_backtrack P = false -> s_step s' = 1 / c_lipschitz C) /\ ext_le (s_obj s') (s_obj s) /\
  exists F', objective f h (s_coefs s') = Fin F' /\ s_obj s' = Fin F' /\ forall z Fz, length z = n -> objective f h z = Fin Fz ->
    2 * total_step (S k) l * (F' - Fz) + sqn (vsub (s_coefs s') z) <= sqn (vsub x0 z).
Proof. exact plain_passes. Qed.
Print Assumptions C104_plain_partial.
(** With a fixed step size, for the result of fit: the O(1/k) rate. *)
Theorem C104_rate_partial : forall n f h C P loops fuel x0 st att s z Fz, exact_problem n f h C -> steps_fit n P C -> p_restart P = Some 1%nat \/ p_restart P = Some 0%nat -> p_backtrack P = false ->
  length x0 = n -> good_start h C x0 -> 0 < first_step P st -> length z = n -> objective f h z = Fin Fz -> fit loops fuel P C x0 st att = Ok s -> s_it s <> 0%nat ->
  exists Fs, objective f h (s_coefs s) = Fin Fs /\ Fs - Fz <= c_lipschitz C * sqn (vsub x0 z) / (2 * INR (s_it s)).
Proof. exact plain_rate. Qed.
Print Assumptions C104_rate_partial.

(** A run of five iterations with restart=2, in which the second and the fourth are restarts. *)
Definition restarting (r : nat) : params := mk_params None None (Some 50%nat) true 1 (Some r) false false false.
Example C104_instance : exists l, length l = 6%nat /\ passes 0 (restarting 2) (ridge 2) (fista_start (restarting 2) (ridge 2) [1; -2; 3] None false) l /\
  due 2 2 /\ ~ due 2 3 /\ due 2 4 /\ p_monotonicity (restarting 2) = false.
Proof.
  destruct (passes_exist 0 (restarting 2) (ridge 2) [1; -2; 3] None false 5) as (l & Ll & Pa); [reflexivity|reflexivity|cbn; lra|cbn; lia|]. exists l. split; auto. split; auto.
  split; [exists 1%nat; reflexivity|]. split; [intros (m & E); lia|]. split; [exists 2%nat; reflexivity|reflexivity].
Qed.
(** The hypotheses of the last two theorems are met by minimizing |x|^2/2 with the constant 2. *)
Example C104_plain_instance : exact_problem 3 half_sq (fun _ => Fin 0) (ridge 2) /\ steps_fit 3 (restarting 1) (ridge 2) /\ good_start (fun _ => Fin 0) (ridge 2) [1; -2; 3] /\ 0 < first_step (restarting 1) None /\
  exists l, length l = 6%nat /\ passes 0 (restarting 1) (ridge 2) (fista_start (restarting 1) (ridge 2) [1; -2; 3] None false) l.
Proof.
  split; [apply ridge_exact|]. split; [right; cbn; split; [lra|intros x y Lx Ly; assert (N := ridge_lipschitz 3 x y Lx Ly); assert (0 <= norm (vsub x y)) by apply sqrt_pos; lra]|]. split; [reflexivity|]. split; [cbn; lra|].
  apply passes_exist; [reflexivity|reflexivity|cbn; lra|cbn; lia].
Qed.
