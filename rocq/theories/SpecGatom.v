(** What the group lasso and mixed lasso objects stand for. *)
From Coq Require Import Reals List ZArith Permutation.
From Verif Require Import Vec Spec M_quad M_prox M_semi SpecAtom M_shift SpecBase SpecMode M_mode SpecModed SpecPart SpecGroup M_mixed M_group M_mixed_atom.
Import ListNotations.
Local Open Scope R_scope.

Definition gfun (dual : bool) (labels : list Z) (given : Z -> option R) : vec -> ext :=
  if dual then glasso_dual labels (group_weight given labels) else glasso labels (group_weight given labels).
(** Every group has a weight >= 0 (given, or the default). *)
Definition weights_nonneg (labels : list Z) (given : Z -> option R) : Prop := forall g, In g labels -> 0 <= group_weight given labels g.
(** ... or: every weight is 0 or at least 1e-20 *)
Definition weights_range (labels : list Z) (given : Z -> option R) : Prop := forall g, In g labels -> group_weight given labels g = 0 \/ / 10 ^ 20 <= group_weight given labels g.
Definition weights_regular (labels : list Z) (given : Z -> option R) : Prop := forall g, In g labels -> / 10 ^ 20 <= group_weight given labels g.
Definition some_weight (labels : list Z) (given : Z -> option R) : Prop := exists g, In g labels /\ group_weight given labels g <> 0.
Definition gatom_wf (n : nat) (a : gatom) (m : smode) : Prop :=
  length (g_groups a) = n /\ moded_wf n (g_moded a) m /\ weights_nonneg (g_groups a) (g_weights a).
(** The parameters for which proximal() is proved correct. *)
Definition gprox_legal (a : gatom) (m : smode) : Prop :=
  match g_dual a, m with
  | false, Lagrange _ | true, Bound _ => True
  | false, Bound r | true, Lagrange r => g_groups a <> [] /\ weights_range (g_groups a) (g_weights a) /\ (0 < r \/ some_weight (g_groups a) (g_weights a))
  end.
(** Values are proved for these objects: the dual evaluates ||u_g||/w_g only for positive weights. *)
Definition value_legal (a : gatom) : Prop := if g_dual a then g_groups a <> [] /\ forall g, In g (g_groups a) -> 0 < group_weight (g_weights a) (g_groups a) g else True.
(** The four cones, as functions taking the values 0 and +infinity. *)
Definition gcone_fun (k : gcclass) (labels : list Z) (given : Z -> option R) : vec -> ext :=
  match k with
  | GEpi => epi_fun (gfun false labels given)
  | GEpiPolar => epi_neg_fun (gfun true labels given)
  | GDualEpi => epi_fun (gfun true labels given)
  | GDualEpiPolar => epi_neg_fun (gfun false labels given)
  end.
Definition gcone_wf (n : nat) (c : gcone) : Prop :=
  S (length (gc_groups c)) = n /\ gc_groups c <> [] /\ weights_regular (gc_groups c) (gc_weights c) /\ base_wf n (gc_base c).

(** The ids stored by a mixed lasso object enumerate the groups. *)
Definition enumerates (ids labels : list Z) : Prop := Permutation ids (mixed_groups labels).
Definition mfun (dual : bool) (labels : list Z) (given : Z -> option R) (par : R) : vec -> ext :=
  if dual then gmode (mixed_pen_dual labels (group_weight given labels)) (Bound par) else gmode (mixed_pen labels (group_weight given labels)) (Lagrange par).
Definition mlatom_wf (n : nat) (a : mlatom) : Prop :=
  length (ml_labels a) = n /\ enumerates (ml_ids a) (ml_labels a) /\ 0 <= ml_par a /\ base_wf n (ml_base a) /\
  forall g, In g (mixed_groups (ml_labels a)) -> 0 <= group_weight (ml_weights a) (ml_labels a) g.
(** No 0/0 occurs in proximal(): the parameter is positive or there is no l1 coordinate. *)
Definition mprox_legal (a : mlatom) : Prop := 0 < ml_par a \/ ~ In (-2)%Z (ml_labels a).
(** The inequality accepted by the cones' feasibility test, with its relative tolerance. *)
Definition relaxed (k : gcclass) (labels : list Z) (given : Z -> option R) (x : vec) : Prop :=
  let t := match k with GEpi | GDualEpi => last x 0 | _ => - last x 0 end in
  let h := gfun (match k with GEpi | GDualEpiPolar => false | _ => true end) labels given in
  ext_le (h (removelast x)) (Fin ((1 + / 10 ^ 5) * t)).
