(** Cox's partial likelihood, with Breslow's treatment of ties. *)
From Coq Require Import Reals List Arith Permutation.
From Verif Require Import Vec Spec SpecLoss.
Import ListNotations.
Local Open Scope R_scope.

Section Likelihood.
Variables (T : vec) (cens : list nat) (w : vec).
Let n := length T.
(** the weight of those still at risk at the time of case i *)
Definition at_risk (eta : vec) (i : nat) : R := sum_over n (fun j => if Rle_dec (nth i T 0) (nth j T 0) then nth j w 0 * exp (nth j eta 0) else 0).
Definition cox_loss (eta : vec) : R := sum_over n (fun i => INR (nth i cens 0%nat) * nth i w 0 * (ln (at_risk eta i) - nth i eta 0)).
(** somebody of positive weight is at risk at every time *)
Definition covered : Prop := forall i, (i < n)%nat -> exists j, (j < n)%nat /\ nth i T 0 <= nth j T 0 /\ 0 < nth j w 0.
End Likelihood.
(** ord lists 0, ..., n-1 by increasing time *)
Definition sorts (T : vec) (ord : list nat) : Prop :=
  Permutation ord (seq 0 (length T)) /\ forall a b, (a <= b < length T)%nat -> nth (nth a ord 0%nat) T 0 <= nth (nth b ord 0%nat) T 0.
(** The data of n cases fit together; counts, weights and linear predictors are given by n numbers. *)
Definition cox_shapes (T : vec) (cens : list nat) (w eta : vec) : Prop := length cens = length T /\ length w = length T /\ length eta = length T.
