(** C96: where glm.logistic and glm.cloglog do not return the documented value. *)
From Coq Require Import Reals ZArith List Arith Lia Lra.
From Verif Require Import Vec Spec M_quad M_buffer M_affine M_loss SpecLoss SpecSmooth M_factory SpecFactory P_sklearn3 P_factory P_factory3 P_factory4.
Import ListNotations.
Local Open Scope R_scope.

(** glm.logistic: for every design, data with trials in each case, offsets and positive weights, the value never exceeds the documented one, and is it if and only if no
    linear predictor exceeds 100. *)
Theorem C96_overflow_refuted : forall h X s t n p c soff off q w h1 g b, let D := DLogistic s t in
  data_fits D n -> good_design X p n -> off_fits n soff -> off_fits p off -> length b = p -> 0 < c ->
  (forall i, (i < n)%nat -> 0 < nth i (weights_of h n w) 0) -> (forall i, (i < n)%nat -> 0 < nth i (trials_of (doc_family D)) 0) ->
  glm_make h X D c soff off q w = (h1, Ok g) ->
  exists F, glm_eval h1 g b EvFunc = (h1, Ok (VFunc F)) /\ F <= doc_loss (doc_family D) n c (weights_of h n w) (minus (t_lin X (minus b off)) soff) /\
    (F = doc_loss (doc_family D) n c (weights_of h n w) (minus (t_lin X (minus b off)) soff) <-> Forall (fun e => e <= 100) (minus (t_lin X (minus b off)) soff)).
Proof. exact logistic_overflow. Qed.
Print Assumptions C96_overflow_refuted.
Example C96_overflow_case : let X := matrix [[1; 2]; [0; 1]] 2 None in let D := DLogistic [2; 1] (Some [3; 1]) in
  data_fits D 2 /\ good_design X 2 2 /\ (forall i, (i < 2)%nat -> 0 < nth i (weights_of [] 2 None) 0) /\ (forall i, (i < 2)%nat -> 0 < nth i (trials_of (doc_family D)) 0) /\
  (exists h1 g, glm_make [] X D 1 None None None None = (h1, Ok g)) /\ ~ Forall (fun e => e <= 100) (minus (t_lin X (minus [101; 0] None)) None).
Proof.
  cbv zeta. split; [split; reflexivity|]. split; [apply matrix_design; split; [reflexivity|repeat constructor]|]. split; [intros [|[|i]] H; cbn; lra || lia|]. split; [intros [|[|i]] H; cbn; lra || lia|]. split.
  - apply (make_accepts [] (matrix [[1; 2]; [0; 1]] 2 None) (DLogistic [2; 1] (Some [3; 1])) 2 1 None None None None (Logic.conj eq_refl eq_refl) eq_refl). split; [lra|]. split; [cbn; repeat constructor; lra|]. split; [reflexivity|repeat constructor; cbn; lra].
  - intros H. apply Forall_inv in H. cbn in H. unfold dot, vsum in H. cbn in H. lra.
Qed.
(** glm.cloglog, one success: the value is the documented one if and only if the linear predictor is between -5 and 5. *)
Theorem C96_clipping_refuted : forall c b, 0 < c -> exists h1 g F, glm_make [] (one_by_one 1) (DCloglog [1] None) c None None None None = (h1, Ok g) /\
  glm_eval h1 g [b] EvFunc = (h1, Ok (VFunc F)) /\ (F = doc_loss (doc_family (DCloglog [1] None)) 1 c (weights_of [] 1 None) [b] <-> -5 <= b <= 5).
Proof. exact cloglog_clipped. Qed.
Print Assumptions C96_clipping_refuted.
(** glm.cloglog with a saturated offset: the value is the documented one only if the offset is zero. *)
Theorem C96_saturated_offset_refuted : forall c b o, 0 < c -> -5 <= b <= 5 -> exists h1 g F, glm_make [] (one_by_one 1) (DCloglog [1] None) c (Some [o]) None None None = (h1, Ok g) /\
  glm_eval h1 g [b] EvFunc = (h1, Ok (VFunc F)) /\ (F = doc_loss (doc_family (DCloglog [1] None)) 1 c (weights_of [] 1 None) [b - o] <-> o = 0).
Proof. exact cloglog_offset. Qed.
Print Assumptions C96_saturated_offset_refuted.
Example C96_saturated_offset_case : -5 <= 1 <= 5 /\ 0 < 2.
Proof. lra. Qed.
