(** The lowest value of a function. *)
From Coq Require Import Reals.
From Verif Require Import M_loss.
Local Open Scope R_scope.

(** m is the greatest lower bound of f *)
Definition lowest (f : R -> R) (m : R) : Prop := (forall a, m <= f a) /\ forall eps, 0 < eps -> exists a, f a < m + eps.
(** Successes among trials *)
Definition binomial (k : family) : Prop := match k with Logistic _ _ | Cloglog _ _ => True | _ => False end.
