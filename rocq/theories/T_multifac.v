(** C111: multinomial regression made by mglm.multinomial. *)
From Coq Require Import Reals List Lra Lia Arith Bool ZArith.
From Verif Require Import M_affine M_buffer M_loss SpecLoss Vec Spec SpecBlock M_quad M_mglm SpecMglm P_multifac.
Import ListNotations.
Local Open Scope R_scope.

(** The value at the p x q matrix B is coef times the weighted negative log likelihood of the softmax of X B (with a last column of zeros, if the last category is the baseline), as long as no linear predictor is beyond 50. *)
Theorem C111_value_partial : forall h (base : bool) X p (counts : list vec) c weights B J, (0 < length counts)%nat -> (0 < J)%nat -> Forall (fun ct : vec => length ct = J) counts -> counts_ok counts -> 0 <= c ->
  (base = true -> Forall (Forall (fun a => exists z : Z, Rabs (a - IZR z) <= / 10 ^ 8 + / 10 ^ 5 * Rabs a)) counts) ->
  length X = length counts -> Forall (fun r => length r = p) X -> (forall r, weights = Some r -> (r < length h)%nat /\ length (read h r) = length counts) ->
  let q := if base then (J - 1)%nat else J in length B = (p * q)%nat -> within 50 (concat (mat_times X p q B)) ->
  exists h' g, mglm_multinomial h X p counts c None None None weights base = (h', Ok g) /\
    mglm_eval h' g B EvFunc = (h', Ok (VFunc (c * neg_log_lik counts (match weights with Some r => read h r | None => ones (length counts) end) (all_predictors base (mat_times X p q B))))).
Proof. exact factory_value. Qed.
Print Assumptions C111_value_partial.
(** The model with a baseline category is the model without, at the matrix with a column of zeros appended. *)
Theorem C111_baseline_partial : forall h X p (counts : list vec) c weights B B' q, (0 < length counts)%nat -> Forall (fun ct : vec => length ct = S q) counts -> counts_ok counts -> 0 <= c ->
  Forall (Forall (fun a => exists z : Z, Rabs (a - IZR z) <= / 10 ^ 8 + / 10 ^ 5 * Rabs a)) counts ->
  length X = length counts -> Forall (fun r => length r = p) X -> (forall r, weights = Some r -> (r < length h)%nat /\ length (read h r) = length counts) ->
  length B = (p * q)%nat -> length B' = (p * S q)%nat -> (forall k j, (k < p)%nat -> (j < q)%nat -> entry (S q) B' k j = entry q B k j) -> (forall k, (k < p)%nat -> entry (S q) B' k q = 0) -> within 50 (concat (mat_times X p q B)) ->
  exists h1 g1 h2 g2 f, mglm_multinomial h X p counts c None None None weights true = (h1, Ok g1) /\ mglm_multinomial h X p counts c None None None weights false = (h2, Ok g2) /\
    mglm_eval h1 g1 B EvFunc = (h1, Ok (VFunc f)) /\ mglm_eval h2 g2 B' EvFunc = (h2, Ok (VFunc f)).
Proof. exact factory_baseline. Qed.
Print Assumptions C111_baseline_partial.
(** Without baseline, adding the same vector to every column of B does not change the value, ... *)
Theorem C111_shift_partial : forall h X p (counts : list vec) c weights B B' v q, (0 < length counts)%nat -> (0 < q)%nat -> Forall (fun ct : vec => length ct = q) counts -> counts_ok counts -> 0 <= c ->
  length X = length counts -> Forall (fun r => length r = p) X -> (forall r, weights = Some r -> (r < length h)%nat /\ length (read h r) = length counts) ->
  length B = (p * q)%nat -> length B' = (p * q)%nat -> (forall k j, (k < p)%nat -> (j < q)%nat -> entry q B' k j = entry q B k j + nth k v 0) -> within 50 (concat (mat_times X p q B)) -> within 50 (concat (mat_times X p q B')) ->
  exists h' g f, mglm_multinomial h X p counts c None None None weights false = (h', Ok g) /\ mglm_eval h' g B EvFunc = (h', Ok (VFunc f)) /\ mglm_eval h' g B' EvFunc = (h', Ok (VFunc f)).
Proof. exact factory_shift. Qed.
Print Assumptions C111_shift_partial.
(** ... but beyond 50 it does: whatever the coefficients of two categories, if they differ, some shift of both changes the value. *)
Theorem C111_shift_refuted : forall a b, a <> b -> within 50 [a; b] -> exists t h' g f f', mglm_multinomial [] [[1]] 1 [[1; 0]] 1 None None None None false = (h', Ok g) /\
  mglm_eval h' g [a; b] EvFunc = (h', Ok (VFunc f)) /\ mglm_eval h' g [a + t; b + t] EvFunc = (h', Ok (VFunc f')) /\ f <> f'.
Proof. exact clipped_shift. Qed.
Print Assumptions C111_shift_refuted.
(** two cases, two features, three categories *)
Example C111_case : let counts := [[1; 0; 2]; [0; 3; 1]] in let X := [[1; 0]; [1; -1]] in let B := [1; 2; 0; -1] in let B' := [1; 2; 0; 0; -1; 0] in
  Forall (fun ct : vec => length ct = 3%nat) counts /\ counts_ok counts /\ Forall (Forall (fun a => exists z : Z, Rabs (a - IZR z) <= / 10 ^ 8 + / 10 ^ 5 * Rabs a)) counts /\ Forall (fun r : vec => length r = 2%nat) X /\
  (forall k j, (k < 2)%nat -> (j < 2)%nat -> entry 3 B' k j = entry 2 B k j) /\ (forall k, (k < 2)%nat -> entry 3 B' k 2 = 0) /\ within 50 (concat (mat_times X 2 2 B)).
Proof.
  cbv zeta. split; [repeat constructor|]. split; [unfold counts_ok, nonneg; repeat (apply Forall_cons || apply Forall_nil); lra|]. split.
  { assert (Z : forall z : Z, exists y : Z, Rabs (IZR z - IZR y) <= / 10 ^ 8 + / 10 ^ 5 * Rabs (IZR z)). { intros z. exists z. replace (IZR z - IZR z) with 0 by ring. rewrite Rabs_R0. assert (H := Rabs_pos (IZR z)). assert (0 < / 10 ^ 8) by (apply Rinv_0_lt_compat; lra). assert (0 < / 10 ^ 5) by (apply Rinv_0_lt_compat; lra). nra. }
    repeat (apply Forall_cons || apply Forall_nil); apply Z. }
  split; [repeat constructor|]. split; [intros [|[|k]] [|[|j]] Hk Hj; try lia; reflexivity|]. split; [intros [|[|k]] Hk; try lia; reflexivity|].
  unfold within, mat_times, sum_over, entry. cbn. unfold vsum. cbn. repeat (apply Forall_cons || apply Forall_nil); lra.
Qed.
