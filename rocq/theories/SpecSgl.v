(** The sparse group lasso penalty, its dual balls and its dual norm. *)
From Coq Require Import Reals List ZArith.
From Verif Require Import Vec Spec SpecWeighted SpecPart SpecGroup.
Import ListNotations.
Local Open Scope R_scope.

(** sum_j a_j |x_j| + sum_g w_g ||x[g]||_2 *)
Definition sparse_group (labels : list Z) (a : list ext) (w : Z -> R) (x : vec) : ext := ext_add (wl1 a x) (glasso labels w x).
(** sum_j a_j |x_j| + w ||x||_2, the same for a single group *)
Definition one_group (a : vec) (w : R) (x : vec) : ext := ext_add (wl1 (map Fin a) x) (Fin (w * ell2 x)).
(** u is in b times the unit ball of the dual norm:  <u,v> <= b P(v) for every v *)
Definition dual_ball (n : nat) (P : vec -> ext) (b : R) (u : vec) : Prop := forall v s, length v = n -> P v = Fin s -> dot u v <= b * s.
(** t = P*(u), the smallest such b *)
Definition is_dual_norm (n : nat) (P : vec -> ext) (u : vec) (t : R) : Prop :=
  0 <= t /\ dual_ball n P t u /\ forall b, 0 <= b -> dual_ball n P b u -> t <= b.
