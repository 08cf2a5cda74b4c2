(** What a smoothed atom should be. *)
From Coq Require Import Reals List.
From Verif Require Import M_affine M_loss M_smooth Vec Spec SpecConvex M_quad P_quad M_prox M_semi SpecAtom M_fista M_problem SpecProblem M_sconj.
Import ListNotations.
Local Open Scope R_scope.

(** The three modes return one function and one gradient map. *)
Definition evaluates (n : nat) (eval : vec -> smode_arg -> res sval) (f : vec -> R) (g : vec -> vec) : Prop :=
  forall x, length x = n -> eval x EvFunc = Ok (VFunc (f x)) /\ eval x EvGrad = Ok (VGrad (g x)) /\ eval x EvBoth = Ok (VBoth (f x) (g x)) /\ eval x EvOther = Err ValueError.
(** g(x) is the point where the supremum of <x,v> - K(v) is attained, and f(x) its value. *)
Definition attains (n : nat) (K : vec -> ext) (f : vec -> R) (g : vec -> vec) : Prop :=
  forall x, length x = n -> is_fenchel n K x (Fin (f x)) /\ length (g x) = n /\ K (g x) = Fin (dot x (g x) - f x) /\
    forall v, length v = n -> K v = Fin (dot x v - f x) -> v = g x.
(** f is the conjugate of K, a convex function with gradient g, and g is Lipschitz with constant L. *)
Definition smooth_conjugate_of (n : nat) (K : vec -> ext) (L : R) (f : vec -> R) (g : vec -> vec) : Prop :=
  attains n K f g /\ convex_on n f /\ gradient_of n f g /\ lipschitz_map n g L.
(** [A] stands for H + own, with H convex; its proximal is exact whenever the total curvature is positive. *)
Record curved_obj (n : nat) (H : vec -> ext) (own : iq) (A : nobj) : Prop := {
  co_convex : convex_ext n H;
  co_shape : q_shape n own /\ center_ok n own;
  co_value : forall x r, length x = n -> plus_quad n H own x = Fin r -> o_value A x false = Ok (Fin r);
  co_prox : forall q, q_shape n q -> 0 < coef own + coef q -> has_vec q -> exists v, o_prox A q = Ok v /\ is_argmin n (plus_quad n (plus_quad n H own) q) v }.
(** The three modes of an affine smooth object over [f], [g] composed with a linear map: values of f(Tx) and its gradient. *)
Definition evaluates_affine (n : nat) (eval : vec -> smode_arg -> res (option sval)) (F : vec -> R) (Gr : vec -> vec) : Prop :=
  forall x, length x = n -> eval x EvFunc = Ok (Some (VFunc (F x))) /\ eval x EvGrad = Ok (Some (VGrad (Gr x))) /\ eval x EvBoth = Ok (Some (VBoth (F x) (Gr x))).
(** The conjugate's value is implemented: the bound form of these two classes has no value in its dual. *)
Definition dual_value_ok (c : snclass) (m : smode) : Prop := match m with Lagrange _ => True | Bound _ => pair_class c <> CConMax /\ pair_class c <> CConPosPart end.
