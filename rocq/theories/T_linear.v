(** C50: linear constraints. *)
From Coq Require Import Reals List Lra Lia Arith Bool.
From Verif Require Import M_affine Vec Spec SpecLoss M_quad M_prox M_semi M_shift SpecAtom SpecBase P_prox M_linear SpecLinear P_linear.
Import ListNotations.
Local Open Scope R_scope.

(** the two maps are the projections on the span of the rows and on its orthogonal complement; they add up to the identity *)
Theorem C50_projects : forall n B k x, orthonormal n B -> length x = n -> is_proj n (subspace n B k) x (lcon_prox k B x).
Proof. intros n B k x O. exact (prox_projects n B O k x). Qed.
Print Assumptions C50_projects.
Theorem C50_sum : forall n B x, orthonormal n B -> length x = n -> vadd (lcon_prox LProjection B x) (lcon_prox LComplement B x) = x /\ dot (lcon_prox LProjection B x) (lcon_prox LComplement B x) = 0.
Proof.
  intros n B x O Lx. split; [exact (split_sum n B x O Lx LProjection)|]. exact (sub_orth n LProjection B _ _ O (proj1 (proj2 (prox_projects n B O LProjection x Lx))) (proj1 (proj2 (prox_projects n B O LComplement x Lx)))).
Qed.
Print Assumptions C50_sum.
(** objects, with offset and quadratic: proximal is the unique minimizer of the documented function plus the quadratic given *)
Theorem C50_proximal : forall n k B g p h, orthonormal n B -> base_wf n g -> q_shape n p -> 0 < coef (b_quadratic g) + coef p -> some_array g p -> indicates n (subspace n B k) h ->
  exists v, lcon_proximal (mk_lcon k B g) (AQuad p) = Ok v /\ prox_spec n h g p v.
Proof. exact lcon_proximal_ok. Qed.
Print Assumptions C50_proximal.
(** the property conjugate: the Fenchel conjugate, and its conjugate is the function again; when the quadratic is linear *)
Theorem C50_conjugate_partial : forall n k B g h h', orthonormal n B -> base_wf n g -> coef (b_quadratic g) = 0 -> indicates n (subspace n B k) h -> indicates n (subspace n B (other_class k)) h' ->
  exists d, lcon_conjugate (mk_lcon k B g) = LCon (mk_lcon (other_class k) B d) /\ base_wf n d /\ (forall u, length u = n -> is_fenchel n (base_doc n h g) u (base_doc n h' d u)) /\
  exists e, lcon_conjugate (mk_lcon (other_class k) B d) = LCon (mk_lcon k B e) /\ base_wf n e /\ forall v, length v = n -> base_doc n h e v = base_doc n h g v.
Proof. exact lcon_conjugate_ok. Qed.
Print Assumptions C50_conjugate_partial.
(** the other ways to a dual object all raise *)
Theorem C50_conjugate_refuted : forall c,
  (coef (b_quadratic (l_base c)) <> 0 -> lcon_conjugate c = LNameError) /\ (coef (b_quadratic (l_base c)) = 0 -> lcon_get_conjugate c = LKeyError) /\ lcon_get_dual c = Err TypeError.
Proof.
  intros c. unfold lcon_conjugate, lcon_get_conjugate, conjugate_base. split; [|split; [|reflexivity]]; intros H; destruct (Req_EM_T (coef (b_quadratic (l_base c))) 0) as [E|E]; try congruence. destruct (work_out_conjugate _ _ _). reflexivity.
Qed.
Print Assumptions C50_conjugate_refuted.
(** ** Feasibility. projection accepts exactly the points within 1e-5 max(|x|, 1) of the span *)
Theorem C50_rows_test : forall n B x, orthonormal n B -> length x = n ->
  (lcon_constraint LProjection B x = Fin 0 <-> exists v, in_rows n B v /\ ell2 (vsub x v) < / 10 ^ 5 * Rmax (ell2 x) 1) /\ (lcon_constraint LProjection B x = Fin 0 \/ lcon_constraint LProjection B x = PInf).
Proof. intros n B x O Lx. split; [rewrite (rows_test n B x O Lx LProjection); rewrite ell2_norm; split; intros (v & I & H); exists v; rewrite ell2_norm in *; auto|exact (test_total LProjection B x)]. Qed.
Print Assumptions C50_rows_test.
(** projection_complement accepts the span and rejects every point of its own set of norm 1e-5 or more *)
Theorem C50_complement_test_refuted : forall n B x, orthonormal n B -> length x = n -> (in_rows n B x -> lcon_constraint LComplement B x = Fin 0) /\ (off_rows n B x -> / 10 ^ 5 <= ell2 x -> lcon_constraint LComplement B x = PInf).
Proof. intros n B x O Lx. rewrite ell2_norm. exact (complement_inverted n B x O Lx). Qed.
Print Assumptions C50_complement_test_refuted.
(** ** The hypotheses are met *)
Example C50_basis : orthonormal 3 [[1; 0; 0]; [0; 1; 0]] /\ in_rows 3 [[1; 0; 0]; [0; 1; 0]] [2; 3; 0] /\ off_rows 3 [[1; 0; 0]; [0; 1; 0]] [0; 0; 5].
Proof.
  split; [|split].
  - split; [intros [|[|i]] Hi; cbn in *; auto; lia|]. intros [|[|i]] [|[|j]] Hi Hj; cbn in *; try lia; lra.
  - split; auto. exists (fun i => nth i [2; 3] 0). intros [|[|[|j]]] Hj; try lia; unfold sum_over; cbn; lra.
  - split; auto. intros [|[|i]] Hi; cbn in *; try lia; lra.
Qed.
Example C50_indicator : indicates 1 (subspace 1 [[1]] LProjection) (fun _ => Fin 0).
Proof.
  intros x Lx. split; auto. intros N. exfalso. apply N. split; auto. exists (fun _ => nth 0 x 0). intros [|j] Hj; [|lia]. unfold sum_over. cbn. lra.
Qed.
