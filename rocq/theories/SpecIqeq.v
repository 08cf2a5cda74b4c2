(** What == of quadratics is to mean, for C107. *)
From Coq Require Import Reals List.
From Verif Require Import M_affine Vec Spec M_quad.
Import ListNotations.
Local Open Scope R_scope.

(** a is within numpy's default tolerances of b *)
Definition within (a b : R) : Prop := Rabs (a - b) <= / 10 ^ 8 + / 10 ^ 5 * Rabs b.
(** entry by entry *)
Definition all_within (n : nat) (a b : vec) : Prop := forall i, (i < n)%nat -> within (nth i a 0) (nth i b 0).
(** center and linear_term are given *)
Definition no_none (q : iq) : Prop := center q <> FNone /\ linear_term q <> FNone.
