(** C109: the objective of a likelihood, its value together with the constant of its quadratic. *)
From Coq Require Import Reals ZArith List Arith Lra Lia.
From Verif Require Import Vec Spec M_quad M_buffer M_affine M_loss SpecLoss P_loss4 SpecDeviance P_deviance.
Import ListNotations.
Local Open Scope R_scope.

(** Without weights, the objective of the logistic and complementary log-log likelihoods is the sum over cases of what the loss exceeds its lowest value by; it is not negative. *)
Theorem C109_excess_partial : forall h k n c off l x, binomial k -> fits k n -> legal_data k -> (forall i, (i < n)%nat -> 0 < nth i (trials_of k) 0) -> off_fits n off -> length x = n ->
  new_loss h k n c off None None = Ok l -> Forall (exact_case k) (predictor k off x) ->
  exists m F, (forall i, (i < n)%nat -> lowest (doc_case k i) (m i)) /\ snd (loss_eval h l None x EvFunc) = Ok (VFunc F) /\
    F + q_denot n (l_quad l) x = c * sum_over n (fun i => doc_case k i (nth i (predictor k off x) 0) - m i) /\ 0 <= F + q_denot n (l_quad l) x.
Proof. exact excess. Qed.
Print Assumptions C109_excess_partial.
Example C109_case : let k := Logistic [1; 0; 2] [3; 1; 2] in binomial k /\ fits k 3 /\ legal_data k /\ (forall i, (i < 3)%nat -> 0 < nth i (trials_of k) 0) /\ (exists l, new_loss [] k 3 2 None None None = Ok l) /\ Forall (exact_case k) (predictor k None [1; -1; 4]).
Proof.
  cbv zeta. split; [exact Logic.I|]. split; [split; reflexivity|]. split; [repeat constructor; lra|]. split; [intros [|[|[|i]]] H; cbn; lra || lia|]. split; [|repeat constructor; cbn; lra].
  unfold new_loss. destruct (Rlt_dec 2 0); [lra|]. cbn [check_data any_neg vsub vzip existsb]. repeat (match goal with |- context [Rlt_dec ?a ?b] => destruct (Rlt_dec a b); [lra|] end). cbn. eexists. reflexivity.
Qed.
(** With weights, the constant is still that of unit weights: the weighted losses less the unweighted lowest values. *)
Theorem C109_weights_partial : forall h k n c off w l x, binomial k -> fits k n -> legal_data k -> (forall i, (i < n)%nat -> 0 < nth i (trials_of k) 0) -> off_fits n off -> length x = n -> (forall r, w = Some r -> (r < length h)%nat) ->
  new_loss h k n c off None w = Ok l -> Forall (exact_case k) (predictor k off x) ->
  exists m F, (forall i, (i < n)%nat -> lowest (doc_case k i) (m i)) /\ snd (loss_eval h l None x EvFunc) = Ok (VFunc F) /\
    F + q_denot n (l_quad l) x = c * sum_over n (fun i => nth i (match w with Some r => read h r | None => ones n end) 0 * doc_case k i (nth i (predictor k off x) 0) - m i).
Proof. exact excess_weighted. Qed.
Print Assumptions C109_weights_partial.
(** So for one case of weight w with some but not all successes, the objective at the best fit is zero only if w is 1, and negative if w is less. *)
Theorem C109_weights_refuted : forall c w s t, 0 < c -> 0 <= w -> 0 < s < t -> s / t <= 1 / 2 -> exists l F a, new_loss [[w]] (Logistic [s] [t]) 1 c None None (Some 0%nat) = Ok l /\ (forall b, doc_case (Logistic [s] [t]) 0 a <= doc_case (Logistic [s] [t]) 0 b) /\
  snd (loss_eval [[w]] l None [a] EvFunc) = Ok (VFunc F) /\ (F + q_denot 1 (l_quad l) [a] = 0 <-> w = 1) /\ (w < 1 -> F + q_denot 1 (l_quad l) [a] < 0).
Proof. exact weighted_fit. Qed.
Print Assumptions C109_weights_refuted.
Example C109_weights_case : 0 < 2 /\ 0 <= 1 / 2 /\ 0 < 1 < 3 /\ 1 / 3 <= 1 / 2.
Proof. lra. Qed.
(** Poisson: for a count N the lowest value of the loss is N - N log N, but the constant is -coef^2 (N - 1) log N ... *)
Theorem C109_poisson_refuted : forall c N, 0 < c -> (1 <= N)%nat -> exists l F, new_loss [] (Poisson [INR N]) 1 c None None None = Ok l /\ lowest (doc_case (Poisson [INR N]) 0) (INR N - INR N * ln (INR N)) /\
  snd (loss_eval [] l None [ln (INR N)] EvFunc) = Ok (VFunc F) /\ F + q_denot 1 (l_quad l) [ln (INR N)] = c * (INR N - INR N * ln (INR N)) - c * c * ((INR N - 1) * ln (INR N)).
Proof. exact poisson_constant. Qed.
Print Assumptions C109_poisson_refuted.
(** ... so with coefficient 1 the objective at the best fit is 1 for a count of 1, and negative from 3 on. *)
Theorem C109_poisson_fit_refuted : forall N, (1 <= N)%nat -> exists l F, new_loss [] (Poisson [INR N]) 1 1 None None None = Ok l /\ snd (loss_eval [] l None [ln (INR N)] EvFunc) = Ok (VFunc F) /\
  (N = 1%nat -> F + q_denot 1 (l_quad l) [ln (INR N)] = 1) /\ ((3 <= N)%nat -> F + q_denot 1 (l_quad l) [ln (INR N)] < 0).
Proof.
  intros N H. destruct (poisson_constant 1 N ltac:(lra) H) as (l & F & E & _ & V & D). exists l, F. split; auto. split; auto. rewrite D. split.
  - intros ->. cbn. rewrite ln_1. ring.
  - intros H3. assert (K := poisson_negative N H3). lra.
Qed.
Print Assumptions C109_poisson_fit_refuted.
