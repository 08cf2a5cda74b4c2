(** More about C63: after enough iterations the step sizes grow and the rate no longer holds with the final step size. *)
From Coq Require Import Reals List Lra Lia Arith Bool.
From Verif Require Import Vec Spec SpecConvex P_prox M_fista SpecFista P_growth.
Import ListNotations.
Local Open Scope R_scope.

(** For every factor K and every N with (N + 1)^2 > 39600 K there is a problem (minimize |x|, smooth part 0), a starting point and a run of N
    iterations with backtracking, whatever start_step, attempt_decrease, tol and the other arguments, after which the objective
    exceeds its minimum 0 by more than K times the claimed bound. *)
Theorem C63_growth_refuted : forall K s0 att flag cstop tol N loops fuel, 0 < s0 -> N <> 0%nat -> (N <= loops)%nat -> (1 <= fuel)%nat -> 39600 * K < (INR N + 1) * (INR N + 1) ->
  exists C x0 s, exact_problem 1 (fun _ => 0) (fun x => Fin (Rabs (nth 0 x 0))) C /\ (forall L, 0 <= L -> lipschitz_map 1 (c_grad C) L) /\
    length x0 = 1%nat /\ good_start (fun x => Fin (Rabs (nth 0 x 0))) C x0 /\
    fit loops fuel (mk_params tol (Some N) (Some N) flag s0 None cstop false true) C x0 None att = Ok s /\ s_it s = N /\
    exists Fs, objective (fun _ => 0) (fun x => Fin (Rabs (nth 0 x 0))) (s_coefs s) = Fin Fs /\ Fs > K * (2 * sqn (vsub x0 [0]) / (s_step s * ((INR N + 1) * (INR N + 1)))).
Proof.
  intros K s0 att flag cstop tol N loops fuel Hs HN Hl Hf HK. destruct (final s0 att flag cstop tol N Hs HN loops fuel K Hf Hl HK) as (s & E & Ei & Fs & EF & B). exists abs_problem, [big s0 att N], s. split; [exact abs_exact|].
  split; [|split; [reflexivity|split; [reflexivity|split; [exact E|split; [exact Ei|exists Fs; split; [exact EF|exact B]]]]]].
  intros L HL x y Lx Ly. cbn. destruct x as [|a [|? ?]], y as [|b [|? ?]]; try discriminate. unfold norm, sqn, dot. cbn. replace ((0 - 0) * (0 - 0) + 0) with 0 by ring. rewrite sqrt_0. apply Rmult_le_pos; auto. apply sqrt_pos.
Qed.
Print Assumptions C63_growth_refuted.
(** The default start_step and attempt_decrease, and 200 iterations: the claimed bound itself is exceeded. *)
Example C63_growth_case : 39600 * 1 < (INR 200 + 1) * (INR 200 + 1).
Proof. replace (INR 200) with 200 by (rewrite INR_IZR_INZ; reflexivity). lra. Qed.
