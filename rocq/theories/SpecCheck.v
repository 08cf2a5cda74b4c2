(** Specification vocabulary for check_subgradient. *)
From Coq Require Import Reals List.
From Verif Require Import Vec Spec SpecMode.
Import ListNotations.
Local Open Scope R_scope.

(** The multiplier or the bound. *)
Definition parameter (m : smode) : R := match m with Lagrange lam => lam | Bound b => b end.
(** What the method is documented to return twice: the seminorm h of the minimizer u of a penalized problem, the dual seminorm h' of the
    residual z - u of a constrained one. *)
Definition measured (h h' : vec -> ext) (m : smode) (z u : vec) : ext :=
  match m with Lagrange _ => h u | Bound _ => h' (vsub z u) end.
(** What the method requires to be at most the parameter: the other one of the two. *)
Definition limited (h h' : vec -> ext) (m : smode) (z u : vec) : ext :=
  match m with Lagrange _ => h' (vsub z u) | Bound _ => h u end.
(** u solves the proximal problem  minimize 1/2 |z - u|^2 + h-in-mode-m(u). *)
Definition solves_prox (n : nat) (h : vec -> ext) (m : smode) (z u : vec) : Prop :=
  is_unique_argmin n (prox_objective 1 z (gmode h m)) u.
