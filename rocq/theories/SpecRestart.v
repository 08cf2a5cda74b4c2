(** Restarts of the accelerated method. *)
From Coq Require Import Reals List Arith.
From Verif Require Import Vec Spec M_fista.
Import ListNotations.
Local Open Scope R_scope.

(** The next weight of Nesterov's sequence, and the sequence t_0 = 1, t_1, t_2, ... *)
Definition next_weight (t : R) : R := (1 + sqrt (1 + 4 * t ^ 2)) / 2.
Fixpoint nesterov (k : nat) : R := match k with O => 1 | S k' => next_weight (nesterov k') end.
(** The iteration numbered [k] (from 1) is one of those at which restart=[r] asks for a restart: r, 2r, 3r, ... *)
Definition due (r k : nat) : Prop := exists m, k = (m * r)%nat.
(** The proximal gradient step of size [step] from [x]. *)
Definition gradient_step (C : composite) (step : R) (x : vec) : vec := c_prox C (1 / step) x (c_grad C x).
(** The pass from [s] to [s'] refused its proposal. *)
Definition refused (s s' : fstate) : Prop := s_coefs s' = s_coefs s /\ s_obj s' = s_obj s /\ s_working s' = s_coefs s /\ s_weight s' = 1.
(** The pass from [s] to [s'] moved to the gradient step from [x], and set the next point by Nesterov's formula. *)
Definition moved (C : composite) (x : vec) (s s' : fstate) : Prop :=
  s_coefs s' = gradient_step C (s_step s') x /\ s_weight s' = next_weight (s_weight s) /\
  s_working s' = vadd (s_coefs s') (vscal ((s_weight s - 1) / s_weight s') (vsub (s_coefs s') (s_coefs s))).
(** The sizes of the first [k] steps of a run, added up. *)
Definition total_step (k : nat) (l : list fstate) : R := vsum (map s_step (firstn k (tl l))).
