(** What the weighted atoms stand for. *)
From Coq Require Import Reals List.
From Verif Require Import Vec Spec M_quad M_prox M_semi SpecAtom M_shift SpecBase SpecMode M_mode SpecModed SpecWeighted M_weighted.
Local Open Scope R_scope.

Definition wfun (c : wclass) (w : list ext) : vec -> ext := match c with WL1 => wl1 w | WSup => wsup w end.
Definition watom_wf (n : nat) (a : watom) (m : smode) : Prop :=
  length (w_weights a) = n /\ Forall weight_legal (w_weights a) /\ moded_wf n (w_moded a) m.
(** The weights and modes for which proximal() is proved correct: infinite weights with multiplier 0, zero weights
    of the sup norm, and bounds of 0 with no ordinary weight give nan or an exception. *)
Definition wprox_legal (c : wclass) (w : list ext) (m : smode) : Prop :=
  match c, m with
  | WL1, Lagrange lam => 0 < lam \/ ~ In PInf w
  | WL1, Bound b => Forall weight_range w /\ (0 < b \/ exists c, In c w /\ weight_regular c)
  | WSup, Lagrange lam => Forall weight_range w /\ ~ In (Fin 0) w /\ (0 < lam \/ exists c, In c w /\ weight_regular c)
  | WSup, Bound b => 0 < b \/ ~ In (Fin 0) w
  end.
