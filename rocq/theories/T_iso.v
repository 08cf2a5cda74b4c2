(** Property C17: isotonic regression. *)
From Coq Require Import Reals List Lra Lia.
From Verif Require Import Vec Spec SpecIso M_iso P_iso.
Import ListNotations.
Local Open Scope R_scope.

(** The compiled routine: len(y) sweeps are always enough, and the result is the weighted isotonic fit. *)
Theorem C17_isotonic_regression : forall y w fuel, length w = length y -> Forall (fun c => 0 < c) w -> (length y <= fuel)%nat ->
  exists p, isotonic_regression fuel y w = Some p /\ is_isotonic w y p.
Proof. exact isotonic_regression_correct. Qed.
Print Assumptions C17_isotonic_regression.
(** The pure Python routine (unit weights). *)
Theorem C17_pav : forall y fuel, (length y < fuel)%nat -> exists p, pav fuel y = Some p /\ is_isotonic (repeat 1 (length y)) y p.
Proof. exact pav_correct. Qed.
Print Assumptions C17_pav.
Example C17_case : length [1;2;1] = length [3;1;2] /\ Forall (fun c => 0 < c) [1;2;1] /\ (length [3;1;2] <= 3)%nat.
Proof. repeat split; auto. repeat constructor; lra. Qed.
