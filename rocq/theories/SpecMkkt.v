(** Optimality for problems with a mixed lasso penalty. *)
From Coq Require Import Reals List ZArith.
From Verif Require Import Vec Spec SpecConvex SpecFista SpecPart SpecGroup M_quad M_shift M_mixed_atom SpecGatom.
Import ListNotations.
Local Open Scope R_scope.

(** s minimizes f + lam P, P the documented mixed lasso penalty (SpecGroup.mixed_pen) with the given group weights *)
Definition mixed_minimizer (labels : list Z) (given : Z -> option R) (f : vec -> R) (lam : R) (s : vec) : Prop :=
  is_argmin (length labels) (objective f (mfun false labels given lam)) s.
(** the coordinate of the vector v at the label l, at position i *)
Definition at_label (labels : list Z) (i : nat) (l : Z) : Prop := (i < length labels)%nat /\ nth i labels 0%Z = l.
(** label i is a group, not one of the reserved labels *)
Definition at_group (labels : list Z) (i : nat) : Prop := (i < length labels)%nat /\ reserved (nth i labels 0%Z) = false.
Definition weights_ok (labels : list Z) (given : Z -> option R) : Prop := forall g, In g (mixed_groups labels) -> 0 <= group_weight given labels g.
(** When coordinate i should be reported at the tolerance tol: the gradient g leaves the dual ball, or coordinate i (or its group) is not at
    zero and g is not on the boundary *)
Definition sign (a : R) : R := if Rlt_dec a 0 then -1 else if Rlt_dec 0 a then 1 else 0.
Definition reported (labels : list Z) (w : Z -> R) (g s : vec) (lam tol : R) (i : nat) : Prop :=
  let l := nth i labels 0%Z in let gi := nth i g 0 in let si := nth i s 0 in
  l = (-2)%Z /\ (lam * (1 + tol) < Rabs gi \/ (si <> 0 /\ tol <= Rabs (gi / lam + sign si))) \/
  l = (-3)%Z /\ (lam * (1 + tol) < - gi \/ (si <> 0 /\ tol <= Rabs (gi / lam + 1))) \/
  l = (-4)%Z /\ (lam * tol < - gi \/ (si <> 0 /\ / 100 < gi)) \/
  reserved l = false /\ (w l * lam * (1 + tol) < norm (block labels l g) \/ (norm (block labels l s) <> 0 /\ norm (block labels l g) < w l * lam * (1 - tol))).
(** When the strong rule should keep coordinate i, given the gradient g at cur *)
Definition kept_by_rule (labels : list Z) (w : Z -> R) (g : vec) (cur new slope : R) (i : nat) : Prop :=
  let l := nth i labels 0%Z in let gi := nth i g 0 in
  l = (-1)%Z \/ l = (-2)%Z /\ new - slope * (cur - new) <= Rabs gi \/ l = (-3)%Z /\ new - slope * (cur - new) <= - gi \/
  l = (-4)%Z /\ gi <= slope * Rabs (cur - new) \/ reserved l = false /\ w l * (slope + 1) * new - slope * cur <= norm (block labels l g).
(** A mixed lasso object without offset or quadratic part (for the examples), and four features in one group *)
Definition iq0 : iq := mk_iq 0 FNone FNone 0.
Definition mlobj (labels ids : list Z) (given : Z -> option R) : mlatom := mk_mlatom false labels ids given 1 (mk_base (length labels) None iq0).
Definition four : list Z := [1%Z; 1%Z; 1%Z; 1%Z].
