(** What conjugates of separable objects should be. *)
From Coq Require Import Reals List Arith.
From Verif Require Import M_affine M_smooth Vec Spec M_quad M_semi M_shift M_fista SpecFista M_problem SpecProblem M_sconj M_sepconj.
Import ListNotations.
Local Open Scope R_scope.

(** The member stands for H and its conjugate for G, the Fenchel conjugate of H. *)
Record member_for (m : member) (p : (vec -> ext) * (vec -> ext)) : Prop := {
  mf_obj : exact_obj (length (m_group m)) (fst p) (m_obj m);
  mf_conj : exists B, m_conj m = Ok B /\ exact_obj (length (m_group m)) (snd p) B;
  mf_fenchel : forall u, length u = length (m_group m) -> is_fenchel (length (m_group m)) (fst p) u (snd p u) }.
Definition sa_groups (S : sepatom) : list (list nat) := map m_group (sa_members S).
(** Every position lies in a group. *)
Definition covering (n : nat) (groups : list (list nat)) : Prop := forall i, (i < n)%nat -> In i (concat groups).
(** The quadratic of a proximal step at z with unit constant: 1/2 |x - z|^2 *)
Definition unit_step (z : vec) : iq := mk_iq 1 (FVec z) (FScal 0) 0.
