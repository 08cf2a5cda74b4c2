(** Textbook notions for functions on R^n. *)
From Coq Require Import Reals List.
From Verif Require Import Vec Spec.
Import ListNotations.
Local Open Scope R_scope.

(** The point x + t(y - x). *)
Definition between (x y : vec) (t : R) : vec := vadd x (vscal t (vsub y x)).
Definition convex_on (n : nat) (f : vec -> R) : Prop :=
  forall x y t, length x = n -> length y = n -> 0 <= t <= 1 -> f (between x y t) <= (1 - t) * f x + t * f y.
(** ... for functions that may be infinite *)
Definition convex_ext (n : nat) (h : vec -> ext) : Prop :=
  forall x y t a b, length x = n -> length y = n -> 0 <= t <= 1 -> h x = Fin a -> h y = Fin b ->
    ext_le (h (between x y t)) (Fin ((1 - t) * a + t * b)).
Definition gradient_of (n : nat) (f : vec -> R) (g : vec -> vec) : Prop :=
  forall x, length x = n -> is_gradient n f x (g x).
Definition lipschitz_map (n : nat) (g : vec -> vec) (L : R) : Prop :=
  forall x y, length x = n -> length y = n -> norm (vsub (g x) (g y)) <= L * norm (vsub x y).
