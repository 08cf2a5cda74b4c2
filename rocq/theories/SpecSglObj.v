(** Sparse group lasso objects: well-formedness and the parameters for which proximal() is proved correct. *)
From Coq Require Import Reals List ZArith.
From Verif Require Import Vec Spec M_quad M_prox M_semi SpecAtom M_shift SpecBase SpecMode M_mode SpecModed SpecWeighted SpecPart SpecGroup M_mixed M_weighted M_group M_mixed_atom SpecGatom SpecSgl M_sgl.
Import ListNotations.
Local Open Scope R_scope.

Definition spen (a : sgl) : vec -> ext := sparse_group (s_groups a) (s_lasso a) (group_weight (s_weights a) (s_groups a)).
Definition sgl_wf (n : nat) (a : sgl) (m : smode) : Prop :=
  length (s_groups a) = n /\ length (s_lasso a) = n /\ Forall weight_legal (s_lasso a) /\ weights_nonneg (s_groups a) (s_weights a) /\ moded_wf n (s_moded a) m.
(** No 0*inf occurs: the multiplier is positive or every feature weight is finite. *)
Definition no_zero_inf (a : sgl) (r : R) : Prop := 0 < r \/ ~ In PInf (s_lasso a).
