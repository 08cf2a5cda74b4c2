(** What the slope objects stand for. *)
From Coq Require Import Reals List.
From Verif Require Import Vec Spec M_quad M_prox M_semi SpecAtom M_shift SpecBase SpecMode M_mode SpecModed SpecSlope M_slope.
Local Open Scope R_scope.

(** slope is the sorted-l1 norm, slope_conjugate its dual norm. *)
Definition slope_sfun (c : slopeclass) (w : vec) (d : vec -> R) : vec -> ext :=
  match c with SSlope => slope_fun w | SSlopeConj => fun u => Fin (d u) end.
(** Legal weights, consistent shapes, mode m. *)
Definition slope_wf (n : nat) (a : slope_atom) (m : smode) : Prop :=
  (1 <= n)%nat /\ slope_weights n (s_weights a) /\ moded_wf n (s_moded a) m.
