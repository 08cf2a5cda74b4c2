(** Isotonic regression: specification. *)
From Coq Require Import Reals List.
From Verif Require Import Vec Spec.
Import ListNotations.
Local Open Scope R_scope.

Fixpoint nondecreasing (x : vec) : Prop :=
  match x with
  | a :: ((b :: _) as x') => a <= b /\ nondecreasing x'
  | _ => True
  end.
(** Weighted squared distance  sum_i w_i (y_i - v_i)^2. *)
Definition wss (w y v : vec) : R := dot w (map (fun d => d * d) (vsub y v)).
(** p is the unique non-decreasing vector closest to y in the weighted norm. *)
Definition is_isotonic (w y p : vec) : Prop :=
  length p = length y /\ nondecreasing p /\
  forall v, length v = length y -> nondecreasing v -> wss w y p <= wss w y v /\ (wss w y v <= wss w y p -> v = p).
