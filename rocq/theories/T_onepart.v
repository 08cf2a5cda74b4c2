(** C39, continued: problems with one part, made by simple_problem.smooth and simple_problem.nonsmooth. *)
From Coq Require Import Reals List Lra Lia Arith Bool.
From Verif Require Import M_affine SpecAffine M_loss SpecLoss M_smooth SpecSmooth Vec Spec SpecConvex M_quad M_semi SpecAtom M_shift SpecBase SpecCone M_cones M_fista SpecFista M_problem SpecProblem P_problem P_separable P_problem2 P_onepart T_problem.
Import ListNotations.
Local Open Scope R_scope.

(** simple_problem.smooth(a): the value is that of a with its quadratic, at every point, and the solver sees that problem. *)
Theorem C39_only_smooth : forall n a, (1 <= n)%nat -> good_smooth n a -> (forall x chk, length x = n -> simple_value (simple_of_smooth a n) x chk = Fin (s_func a x + q_denot n (s_quadratic a) x)) /\
  exact_problem n (s_func a) (own_quad n (s_quadratic a)) (simple_composite (simple_of_smooth a n)).
Proof. exact only_smooth. Qed.
Print Assumptions C39_only_smooth.
(** simple_problem.nonsmooth(A): the value is that of A where it is finite, and the solver sees the zero function plus A. *)
Theorem C39_only_nonsmooth : forall n H A, exact_obj n H A -> (forall x r chk, length x = n -> H x = Fin r -> simple_value (simple_of_nonsmooth A n) x chk = Fin r) /\
  exact_problem n (fun _ => 0) H (simple_composite (simple_of_nonsmooth A n)).
Proof. exact only_nonsmooth. Qed.
Print Assumptions C39_only_nonsmooth.
Example C39_only_instance : good_smooth 2 lasso_loss /\ exact_obj 2 (atom_doc 2 lasso_atom (Lagrange 3)) (of_atom lasso_atom).
Proof. split; [exact lasso_good|exact lasso_atom_exact]. Qed.
