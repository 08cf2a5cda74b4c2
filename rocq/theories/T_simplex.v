(** Property C16: simplex and maximum. *)
From Coq Require Import Reals List Lra Lia.
From Verif Require Import Vec Spec M_quad M_prox M_semi SpecAtom M_shift SpecBase SpecSimplex M_simplex P_prox P_simplex.
Import ListNotations.
Local Open Scope R_scope.


Theorem C16_simplex_projection : forall n x, (1 <= n)%nat -> length x = n ->
  exists p, simplex_basic_prox x = Ok p /\ is_proj n in_simplex x p.
Proof. exact simplex_prox_correct. Qed.
Print Assumptions C16_simplex_projection.
Theorem C16_maximum_prox : forall n x L, (1 <= n)%nat -> length x = n -> 0 < L ->
  exists p, maximum_basic_prox x L = Ok p /\ is_unique_argmin n (prox_objective L x max_fun) p.
Proof. exact maximum_prox_correct. Qed.
Print Assumptions C16_maximum_prox.
(** Objects with offset and quadratic. *)
Theorem C16_proximal : forall c n g p, (1 <= n)%nat -> base_wf n g -> q_shape n p ->
  0 < coef (b_quadratic g) + coef p -> some_array g p ->
  exists v, simplex_proximal (mk_simplex c g) (AQuad p) = Ok v /\ prox_spec n (simplex_doc c) g p v.
Proof. exact simplex_proximal_correct. Qed.
Print Assumptions C16_proximal.
Theorem C16_conjugate_pair : forall c n g, (1 <= n)%nat -> base_wf n g -> coef (b_quadratic g) = 0 ->
  exists d, simplex_conjugate (mk_simplex c g) = Ok (mk_simplex (simplex_pair c) d) /\ base_wf n d /\
    (forall u, length u = n -> is_fenchel n (base_doc n (simplex_doc c) g) u (base_doc n (simplex_doc (simplex_pair c)) d u)) /\
    exists e, simplex_conjugate (mk_simplex (simplex_pair c) d) = Ok (mk_simplex c e) /\ base_wf n e /\
    forall v, length v = n -> base_doc n (simplex_doc c) e v = base_doc n (simplex_doc c) g v.
Proof. exact simplex_conjugate_correct. Qed.
Print Assumptions C16_conjugate_pair.
Theorem C16_maximum_value : forall n g x chk, (1 <= n)%nat -> base_wf n g -> length x = n ->
  simplex_objective (mk_simplex XMaximum g) x chk = Ok (base_doc n max_fun g x).
Proof. exact maximum_objective_correct. Qed.
Print Assumptions C16_maximum_value.
Theorem C16_simplex_feasibility : forall n x, (1 <= n)%nat -> length x = n ->
  (in_simplex x -> simplex_constraint_value x = Ok (Fin 0)) /\
  (simplex_constraint_value x = Ok (Fin 0) -> exists v, length v = n /\ in_simplex v /\ norm (vsub x v) < / 10 ^ 5 * Rmax (norm x) 1) /\
  (simplex_constraint_value x = Ok PInf -> forall v, length v = n -> in_simplex v -> / 10 ^ 5 * Rmax (norm x) 1 <= norm (vsub x v)) /\
  (simplex_constraint_value x = Ok (Fin 0) \/ simplex_constraint_value x = Ok PInf).
Proof. exact simplex_constraint_correct. Qed.
Print Assumptions C16_simplex_feasibility.

(** A 2-dimensional maximum with an offset and a quadratic meets the hypotheses. *)
Example C16_case :
  let g := mk_base 2 (Some [1; 2]) (mk_iq 3 (FVec [1; 1]) (FVec [2; 0]) 5) in
  let p := mk_iq 1 (FVec [4; -4]) FNone 0 in
  (1 <= 2)%nat /\ base_wf 2 g /\ q_shape 2 p /\ 0 < coef (b_quadratic g) + coef p /\ some_array g p.
Proof.
  cbn. repeat split; auto; try lra.
  - injection H as <-. auto.
  - injection H as <-. intros C. injection C. lra.
  - right. right. discriminate.
Qed.
