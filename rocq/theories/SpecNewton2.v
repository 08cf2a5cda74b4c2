(** Sequences of updates, and what a run leaves alone. *)
From Coq Require Import Reals List.
From Verif Require Import M_affine Vec Spec SpecNewton M_newton.
Import ListNotations.
Local Open Scope R_scope.

(** Updates one after the other *)
Fixpoint updates (H : list vec) (ops : list (vec * vec * vec * vec)) : res (list vec) :=
  match ops with [] => Ok H | (x0, x1, g0, g1) :: ops' => rbind (update_hessian H x0 x1 g0 g1) (fun H' => updates H' ops') end.
(** A step along which the gradient grows *)
Definition curved (n : nat) (o : vec * vec * vec * vec) : Prop :=
  let '(x0, x1, g0, g1) := o in length x0 = n /\ length x1 = n /\ length g0 = n /\ length g1 = n /\ 0 < dot (vsub g1 g0) (vsub x1 x0).
Definition same_parts (N N' : qnewton) : Prop := qn_smooth N' = qn_smooth N /\ qn_atom N' = qn_atom N /\ qn_quadratic N' = qn_quadratic N.
