(** C78: estimators in Lagrange form with unpenalized=True. *)
From Coq Require Import Reals List.
From Verif Require Import M_affine M_loss M_buffer Vec Spec M_quad M_semi M_shift M_mode M_weighted M_prox M_sklearn M_sknull P_sknull.
Import ListNotations.
Local Open Scope R_scope.

(** With a penalty without offset that vanishes at 0, fit of an estimator with unpenalized=True never succeeds, whatever the data, the family,
    the elastic net parameter and the solver: the problem with lagrange = inf has the objective inf * 0 at its start. The coefficients of an earlier fit stay. *)
Theorem C78_unpenalized_refuted : forall norm rest solve mk alpha h e X p y, (forall s a, mk s = Ok a -> b_offset (m_base a) = None) ->
  norm (zeros p) true = Ok (Fin 0) -> snd (fit_unpenalized norm rest solve mk alpha h e X p y) <> Ok tt /\ e_coefs (snd (fst (fit_unpenalized norm rest solve mk alpha h e X p y))) = e_coefs e.
Proof. exact unpenalized_fails. Qed.
Print Assumptions C78_unpenalized_refuted.
(** The weighted l1 norm, the penalty with features that are not penalized (weight 0), is one of these. *)
Theorem C78_unpenalized_weighted_refuted : forall w rest solve (mk : vec -> res moded) alpha h e X p y, (forall s a, mk s = Ok a -> b_offset (m_base a) = None) ->
  snd (fit_unpenalized (fun v check => w_seminorm WL1 w v 1 check) rest solve mk alpha h e X p y) <> Ok tt.
Proof. intros w rest solve mk alpha h e X p y H. exact (proj1 (unpenalized_fails _ rest solve mk alpha h e X p y H (weighted_norm_zero w p))). Qed.
Print Assumptions C78_unpenalized_weighted_refuted.
Example C78_unpenalized_instance : let mk := fun _ : vec => Ok (mk_moded (Some 1) None (new_base 1 None None)) in
  (forall s a, mk s = Ok a -> b_offset (m_base a) = None) /\ w_seminorm WL1 [Fin 0; Fin 1] (zeros 2) 1 true = Ok (Fin 0).
Proof. split; [intros s a E; injection E as <-; reflexivity|apply weighted_norm_zero]. Qed.
