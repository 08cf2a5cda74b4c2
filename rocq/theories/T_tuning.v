(** C108: choose_tuning_parameter(M, ndraw, quantile, sigma). *)
From Coq Require Import Reals List Lra Lia Arith ZArith Permutation.
From Verif Require Import Vec Spec M_quad M_multi SpecMulti P_multi P_multi2 P_multi3 P_multi4 M_tuning SpecTuning P_tuning.
Import ListNotations.
Local Open Scope R_scope.

(** The result is the percentile of the largest statistics of the draws, and there is only one such number. *)
Theorem C108_value : forall M draws q sg, ms_ok M -> ms_slices M <> [] -> draws <> [] -> Forall (good_draw M) draws -> 0 <= q <= 1 ->
  exists V v, Forall2 (largest_stat (ms_slices M)) draws V /\ snd (tuning M draws q sg) = Ok v /\ is_percentile V q v /\ forall w, is_percentile V q w -> w = v.
Proof. exact tuning_value. Qed.
Print Assumptions C108_value.
(** Of n draws more than q (n - 1) do not exceed it and at least (1 - q) (n - 1) are not below it; ... *)
Theorem C108_share_partial : forall M draws q sg v V, ms_ok M -> ms_slices M <> [] -> draws <> [] -> Forall (good_draw M) draws -> 0 <= q <= 1 -> Forall2 (largest_stat (ms_slices M)) draws V ->
  snd (tuning M draws q sg) = Ok v -> q * INR (length draws - 1) < INR (count_le v V) /\ (1 - q) * INR (length draws - 1) <= INR (count_ge v V).
Proof. exact tuning_share. Qed.
Print Assumptions C108_share_partial.
(** ... but with few draws for the quantile, fewer than the share q of the draws do not exceed it. *)
Theorem C108_share_refuted : forall M draws q sg v V, ms_ok M -> ms_slices M <> [] -> (2 <= length draws)%nat -> Forall (good_draw M) draws -> INR (length draws - 1) < q * INR (length draws) -> q < 1 ->
  Forall2 (largest_stat (ms_slices M)) draws V -> NoDup V -> snd (tuning M draws q sg) = Ok v -> INR (count_le v V) < q * INR (length draws).
Proof. exact tuning_short. Qed.
Print Assumptions C108_share_refuted.
(** It does not decrease with the quantile, *)
Theorem C108_monotone : forall M draws q q' sg v w, ms_ok M -> ms_slices M <> [] -> draws <> [] -> Forall (good_draw M) draws -> 0 <= q -> q <= q' -> q' <= 1 ->
  snd (tuning M draws q sg) = Ok v -> snd (tuning M draws q' sg) = Ok w -> v <= w.
Proof. exact tuning_monotone. Qed.
Print Assumptions C108_monotone.
(** does not depend on the order of the draws, *)
Theorem C108_order : forall M draws draws' q sg, ms_ok M -> ms_slices M <> [] -> Forall (good_draw M) draws -> Permutation draws draws' -> snd (tuning M draws q sg) = snd (tuning M draws' q sg).
Proof. exact tuning_order. Qed.
Print Assumptions C108_order.
(** and a quantile outside [0, 1] is refused. *)
Theorem C108_range : forall M draws q sg, ms_ok M -> ms_slices M <> [] -> Forall (good_draw M) draws -> q < 0 \/ 1 < q -> snd (tuning M draws q sg) = Err ValueError.
Proof. exact tuning_range. Qed.
Print Assumptions C108_range.
(** The result does not depend on the scaling of the transform, as documented; nor on sigma, which is documented as the noise level of the statistic. *)
Theorem C108_sigma_refuted : forall M M' draws q sg sg', ms_ok M -> ms_ok M' -> ms_slices M' = ms_slices M -> ms_p M' = ms_p M -> ms_slices M <> [] -> Forall (good_draw M) draws -> snd (tuning M draws q sg) = snd (tuning M' draws q sg').
Proof. exact tuning_scaling. Qed.
Print Assumptions C108_sigma_refuted.
(** Afterwards the transform has another scaling, whatever it had before. *)
Theorem C108_scaling_refuted : forall M draws q sg x, ms_ok M -> ms_slices M <> [] -> draws <> [] -> Forall (good_draw M) draws -> length x = ms_p M ->
  ms_linear (fst (tuning M draws q sg)) x = Ok (doc_multi (ms_slices M) (FVec (map sqrt (ms_sizes M))) x).
Proof. exact tuning_leaves. Qed.
Print Assumptions C108_scaling_refuted.
(** Two draws with different statistics, and the default quantile *)
Example C108_case : let M := ms_new 3 None [(0, 2)%Z] FNone in let draws := [[1; 1; 0]; [1; -1; 0]] in
  ms_ok M /\ ms_slices M <> [] /\ Forall (good_draw M) draws /\ (exists V, Forall2 (largest_stat (ms_slices M)) draws V /\ NoDup V) /\ INR (length draws - 1) < (95 / 100) * INR (length draws).
Proof.
  cbv zeta. assert (K : ms_ok (ms_new 3 None [(0, 2)%Z] FNone)) by (apply new_ok; [lia|exact I|repeat constructor; cbn; lia|exact I]).
  assert (A1 : average [1; 1; 0] = 2 / 3) by (unfold average, vsum; cbn; field). assert (A2 : average [1; -1; 0] = 0) by (unfold average, vsum; cbn; field).
  assert (D1 : 0 < deviation [1; 1; 0]) by (unfold deviation; rewrite A1; apply sqrt_lt_R0; unfold average, vsum; cbn; lra).
  assert (D2 : 0 < deviation [1; -1; 0]) by (unfold deviation; rewrite A2; apply sqrt_lt_R0; unfold average, vsum; cbn; lra).
  split; [exact K|]. split; [discriminate|]. split; [repeat constructor; lra|]. split.
  - exists [interval_stat [1; 1; 0] (0, 2)%Z; interval_stat [1; -1; 0] (0, 2)%Z]. split.
    + assert (L : forall z, largest_stat [(0, 2)%Z] z (interval_stat z (0, 2)%Z)) by (intros z; split; [exists (0, 2)%Z; split; [left; reflexivity|reflexivity]|intros s [<-|[]]; lra]).
      constructor; [apply L|]. constructor; [apply L|constructor].
    + constructor; [|constructor; [intros []|constructor]]. intros [E|[]]. unfold interval_stat in E. cbn [fst snd length] in E. rewrite A1, A2 in E.
      assert (M1 : interval_mean (map (fun a => a - 2 / 3) [1; 1; 0]) (Z.to_nat 0) (Z.to_nat 2) = 1 / 3) by (unfold interval_mean; change (Z.to_nat 2 - Z.to_nat 0)%nat with 2%nat; change (Z.to_nat 0) with 0%nat; unfold vsum; cbn; field).
      assert (M2 : interval_mean (map (fun a => a - 0) [1; -1; 0]) (Z.to_nat 0) (Z.to_nat 2) = 0) by (unfold interval_mean; change (Z.to_nat 2 - Z.to_nat 0)%nat with 2%nat; change (Z.to_nat 0) with 0%nat; unfold vsum; cbn; field).
      rewrite M1, M2 in E. assert (S2 : 0 < sqrt (IZR (2 - 0))) by (apply sqrt_lt_R0; cbn; lra).
      assert (P : 0 < sqrt (IZR (2 - 0)) * (1 / 3) / deviation [1; 1; 0]) by (apply Rdiv_lt_0_compat; lra). rewrite (Rabs_pos_eq (sqrt (IZR (2 - 0)) * (1 / 3) / deviation [1; 1; 0])) in E by lra.
      replace (sqrt (IZR (2 - 0)) * 0 / deviation [1; -1; 0]) with 0 in E by (field; lra). rewrite Rabs_R0 in E. lra.
  - cbn. lra.
Qed.
