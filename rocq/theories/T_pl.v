(** Property C11: the piecewise-linear root finders of regreg/atoms/piecewise_linear.pyx. *)
From Coq Require Import Reals List Lra.
From Verif Require Import Vec Spec M_prox P_pl.
Import ListNotations.
Local Open Scope R_scope.

(** slope 0 (projection onto the l1 ball): 0 below the bound, otherwise the root. *)
Theorem C11_slope_zero : forall b norms, norms <> [] -> 0 <= b -> Forall (fun x => 0 <= x) norms ->
  exists t, find_solution_piecewise_linear_c b 0 norms = Ok t /\ 0 <= t /\
    (vsum norms < b -> t = 0) /\
    (b <= vsum norms -> vsum (map (fun x => pos (x - t)) norms) = b).
Proof. exact find_c_slope0_root. Qed.
Print Assumptions C11_slope_zero.
Example C11_case0 : [1;0;3] <> [] /\ 0 <= 2 /\ Forall (fun x => 0 <= x) [1;0;3] /\ 2 <= vsum [1;0;3].
Proof. repeat split; try discriminate; try (repeat constructor; lra); simpl; lra. Qed.

(** slope 1 (epigraph): 0 when the point is inside; otherwise the root t >= 0; or, when the
    apex is the projection, a value below -b, which is what the caller tests. *)
Theorem C11_slope_one : forall b norms, norms <> [] -> Forall (fun x => 0 <= x) norms ->
  exists t, find_solution_piecewise_linear_c b 1 norms = Ok t /\
    ( (vsum norms < b /\ t = 0)
      \/ (b <= vsum norms /\ vsum (map (fun x => pos (x - t)) norms) = t + b /\ 0 <= t /\ 0 <= b + t)
      \/ (b + t < 0 /\ Forall (fun x => x < - b) norms) ).
Proof. exact find_c_slope1. Qed.
Print Assumptions C11_slope_one.

(** Unconstrained version: the root, of either sign. *)
Theorem C11_unconstrained : forall b values, values <> [] -> 0 <= b ->
  exists t, find_solution_piecewise_linear_uncon b values = Ok t /\
    vsum (map (fun x => pos (x - t)) values) = b /\ exists m, In m values /\ t <= m.
Proof. exact find_uncon_spec. Qed.
Print Assumptions C11_unconstrained.

(** Weighted version, weights at least 1e-20 (the code's guard; smaller ones are treated as 1e-20
    in the knot but not in the slope). *)
Theorem C11_weighted_partial : forall b norms weights, norms <> [] -> length norms = length weights -> 0 <= b ->
  Forall (fun x => 0 <= x) norms -> Forall (fun w => / 10 ^ 20 <= w) weights ->
  exists t, find_solution_piecewise_linear b 0 norms weights = Ok t /\ 0 <= t /\
    (vsum (vmul weights norms) < b /\ t = 0 \/
     b <= vsum (vmul weights norms) /\ vsum (vzip (fun x w => w * pos (x - w * t)) norms weights) = b).
Proof. exact find_w_slope0. Qed.
Print Assumptions C11_weighted_partial.
Example C11_case_w : length [1;0;3] = length [1;2;1/2] /\ Forall (fun w => / 10 ^ 20 <= w) [1;2;1/2].
Proof. split; auto. assert (/ 10 ^ 20 <= / 2) by (apply Rinv_le_contravar; lra). repeat constructor; lra. Qed.
