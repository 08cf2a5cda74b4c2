(** One weight used for all entries of a slope or a conjugate slope. *)
From Coq Require Import Reals List.
From Verif Require Import Vec Spec M_slope.
Import ListNotations.
Local Open Scope R_scope.

(** w times the l1 norm, and the l1 norm over w *)
Definition one_weight_norm (c : slopeclass) (w : R) (y : vec) : R := match c with SSlope => w * ell1 y | SSlopeConj => ell1 y / w end.
