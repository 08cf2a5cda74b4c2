(** What a run of the FISTA solver means. *)
From Coq Require Import Reals List Arith.
From Verif Require Import Vec Spec SpecConvex M_fista.
Import ListNotations.
Local Open Scope R_scope.

(** smooth + nonsmooth value at x *)
Definition total (C : composite) (x : vec) (check_feasibility : bool) : ext := ext_add (c_smooth C x) (c_nonsmooth C x check_feasibility).
(** [b] exceeds [a] by at most 1e-10 relative to max(|a|, 1); anything is allowed after an infinite value. *)
Definition not_worse (a b : ext) : Prop :=
  match a, b with Fin u, Fin v => v <= u + / 10 ^ 10 * Rmax (Rabs u) 1 | Fin _, PInf => False | PInf, _ => True end.
(** One iteration, as seen from outside: coefficients and recorded value before and after. Either nothing
    changes, or the new value is the objective at the new coefficients. *)
Definition legal_move (C : composite) (a b : vec * ext) : Prop := b = a \/ snd b = total C (fst b) false.
(** [tr] lists coefficients and objective at the start of every completed iteration. *)
Definition full_trace (s : fstate) (tr : list (vec * ext)) : list (vec * ext) := tr ++ [(s_coefs s, s_obj s)].
Definition explains (C : composite) (P : params) (x0 : vec) (s : fstate) (tr : list (vec * ext)) : Prop :=
  length tr = s_it s /\ map snd tr = history s /\
  (forall d, nth 0 (full_trace s tr) d = (x0, total C x0 true)) /\
  forall k d, (k < s_it s)%nat -> legal_move C (nth k (full_trace s tr) d) (nth (S k) (full_trace s tr) d).

(** The problem minimize f + h over R^n: f convex and differentiable, h convex, and the composite's methods
    compute f, its gradient, h and exact proximal steps. *)
Record exact_problem (n : nat) (f : vec -> R) (h : vec -> ext) (C : composite) : Prop := {
  ex_convex : convex_on n f;
  ex_gradient : gradient_of n f (c_grad C);
  ex_convex_h : convex_ext n h;
  ex_smooth : forall x, length x = n -> c_smooth C x = Fin (f x);
  ex_nonsmooth : forall x r check, length x = n -> h x = Fin r -> c_nonsmooth C x check = Fin r;
  ex_prox : forall L w g, 0 < L -> length w = n -> length g = n ->
    is_argmin n (fun z => ext_add (h z) (Fin (L / 2 * sqn (vsub z w) + dot g z))) (c_prox C L w g) }.
(** The starting point is judged right: always so inside the domain of h; a point just outside a constraint may be taken as feasible. *)
Definition good_start (h : vec -> ext) (C : composite) (x0 : vec) : Prop := c_nonsmooth C x0 true = h x0.
Definition objective (f : vec -> R) (h : vec -> ext) (x : vec) : ext := ext_add (Fin (f x)) (h x).
(** Either backtracking is on, or the fixed step 1/lipschitz is used and lipschitz is a Lipschitz constant of the gradient. *)
Definition steps_fit (n : nat) (P : params) (C : composite) : Prop :=
  p_backtrack P = true \/ (0 < c_lipschitz C /\ lipschitz_map n (c_grad C) (c_lipschitz C)).
(** No recorded value exceeds the one before it by more than the tolerance. *)
Definition chain (l : list ext) : Prop := forall k, (S k < length l)%nat -> not_worse (nth k l PInf) (nth (S k) l PInf).
(** The step size a run starts with. *)
Definition first_step (P : params) (old_step : option R) : R := match old_step with Some r => r | None => p_start_step P end.
(** f(p) is below the quadratic model of curvature 1/step at w. *)
Definition model_bound (f : vec -> R) (g w p : vec) (step : R) : Prop := f p <= f w + dot g (vsub p w) + / (2 * step) * sqn (vsub p w).
(** The tolerance test: the proposal [p] hardly differs from the coefficients, or its value hardly differs from theirs. *)
Definition close_enough (C : composite) (P : params) (s : fstate) (p : vec) : Prop :=
  if p_coef_stop P then norm (vsub (s_coefs s) p) / Rmax 1 (norm p) < tol_of P
  else match s_obj s, total C p false with Fin u, Fin v => Rabs (v - u) / Rmax (Rabs u) 1 < tol_of P \/ Rabs (v - u) < tol_of P | _, _ => False end.
(** [l] lists the states at the start of the passes of a run from [s0]. *)
Definition passes (fuel : nat) (P : params) (C : composite) (s0 : fstate) (l : list fstate) : Prop :=
  (forall d, nth 0 l d = s0) /\ forall k d, (S k < length l)%nat -> iterate fuel P C (nth k l d) = Ok (Continue (nth (S k) l d)).
(** How much a sequence of step sizes grew in all: the product of its increases, reductions not counted. *)
Fixpoint growth (l : list R) : R := match l with a :: ((b :: _) as r) => Rmax 1 (b / a) * growth r | _ => 1 end.
(** A pass that begins by trying a larger step. *)
Definition tries_more (s : fstate) : bool := orb (Nat.eqb ((s_it s + 1) mod 100) 0) (s_attempt s).
