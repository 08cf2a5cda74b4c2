(** Properties C13-C15, C59, C60: cones. *)
From Coq Require Import Reals List Lra Lia.
From Verif Require Import Vec Spec M_quad M_prox M_semi SpecAtom M_shift SpecBase SpecCone M_cones P_prox P_cones.
Import ListNotations.
Local Open Scope R_scope.

(** C13 *)
Theorem C13_cone_prox_projects : forall k n x, cone_dim k n -> length x = n -> k <> KL2 -> k <> KL2Polar ->
  exists p, cone_prox k x = Ok p /\ is_proj n (in_cone k) x p.
Proof. exact cone_prox_correct. Qed.
Print Assumptions C13_cone_prox_projects.
Example C13_case : cone_dim KL1Polar 3 /\ length [1; -2; 0] = 3%nat /\ KL1Polar <> KL2.
Proof. unfold cone_dim. simpl. repeat split; auto; discriminate. Qed.

(** C14. Correct outside the interior of the cone and off the axis; wrong inside. *)
Theorem C14_l2_epigraph_partial : forall n v t, length (v ++ [t]) = n -> v <> [] -> 0 < norm v -> t <= norm v ->
  exists p, cone_prox KL2 (v ++ [t]) = Ok p /\ is_proj n (in_cone KL2) (v ++ [t]) p.
Proof. exact l2_prox_outside. Qed.
Print Assumptions C14_l2_epigraph_partial.
Theorem C14_l2_epigraph_polar_partial : forall n v t, length (v ++ [t]) = n -> v <> [] -> 0 < norm v -> - t <= norm v ->
  exists p, cone_prox KL2Polar (v ++ [t]) = Ok p /\ is_proj n (in_cone KL2Polar) (v ++ [t]) p.
Proof. exact l2_polar_prox_outside. Qed.
Print Assumptions C14_l2_epigraph_polar_partial.
Example C14_case : length ([3] ++ [2]) = 2%nat /\ [3] <> [] /\ 0 < norm [3] /\ 2 <= norm [3].
Proof. rewrite norm1 by lra. repeat split; try lra. discriminate. Qed.
(** (3,5) lies in the cone but is moved to (4,4). *)
Theorem C14_l2_epigraph_interior_refuted :
  in_cone KL2 [3; 5] /\ cone_prox KL2 [3;5] = Ok [4;4] /\ ~ is_proj 2 (in_cone KL2) [3;5] [4;4].
Proof. exact l2_prox_interior. Qed.
Print Assumptions C14_l2_epigraph_interior_refuted.
(** On the axis the code divides 0 by 0. *)
Theorem C14_l2_epigraph_axis_refuted : cone_prox KL2 [0; 5] = Err NaNResult.
Proof. exact l2_prox_axis. Qed.
Print Assumptions C14_l2_epigraph_axis_refuted.

(** C15 (the l2 pair is excluded; refuted for it below). *)
Theorem C15_moreau_partial : forall k n x, cone_dim k n -> length x = n -> k <> KL2 -> k <> KL2Polar ->
  exists p q, cone_prox k x = Ok p /\ cone_prox (polar_class k) x = Ok q /\ vadd p q = x /\ dot p q = 0.
Proof. exact cone_prox_moreau. Qed.
Print Assumptions C15_moreau_partial.
Theorem C15_moreau_l2_refuted :
  exists p q, cone_prox KL2 [3;5] = Ok p /\ cone_prox KL2Polar [3;5] = Ok q /\ vadd p q <> [3;5].
Proof. exact l2_moreau_fails. Qed.
Print Assumptions C15_moreau_l2_refuted.
(** The class table pairs every cone with its polar. *)
Theorem C15_pairs_polar : forall k n w, cone_dim k n -> length w = n -> (in_cone (polar_class k) w <-> in_polar n k w).
Proof. exact polar_exact. Qed.
Print Assumptions C15_pairs_polar.

(** C59. Cone objects with offset and quadratic. *)
Theorem C59_cone_proximal_partial : forall k n g p, cone_dim k n -> k <> KL2 -> k <> KL2Polar -> base_wf n g -> q_shape n p ->
  0 < coef (b_quadratic g) + coef p -> some_array g p ->
  exists v, cone_proximal (mk_cone k g) (AQuad p) = Ok v /\ prox_spec n (cone_fun k) g p v.
Proof. exact cone_proximal_correct. Qed.
Print Assumptions C59_cone_proximal_partial.
Theorem C59_cone_conjugate : forall k n g, cone_dim k n -> base_wf n g -> coef (b_quadratic g) = 0 ->
  exists d, cone_conjugate (mk_cone k g) = Some (mk_cone (polar_class k) d) /\ base_wf n d /\
    (forall u, length u = n -> is_fenchel n (base_doc n (cone_fun k) g) u (base_doc n (cone_fun (polar_class k)) d u)) /\
    exists e, cone_conjugate (mk_cone (polar_class k) d) = Some (mk_cone k e) /\ base_wf n e /\
    forall v, length v = n -> base_doc n (cone_fun k) e v = base_doc n (cone_fun k) g v.
Proof. exact cone_conjugate_correct. Qed.
Print Assumptions C59_cone_conjugate.
Example C59_case : base_wf 2 (mk_base 2 (Some [1;0]) (mk_iq 0 (FScal 0) (FVec [1;2]) 3)).
Proof.
  unfold base_wf, q_shape. simpl. repeat split; auto; intros; injection H as <-; auto. intros C. injection C. lra.
Qed.

(** C60. Feasibility tests of cones. *)
Theorem C60_feasible_accepted : forall k n x, cone_dim k n -> length x = n -> in_cone k x -> cone_constraint k x = Ok (Fin 0).
Proof. exact cone_constraint_complete. Qed.
Print Assumptions C60_feasible_accepted.
Theorem C60_exact_acceptance_set : forall k n x, cone_dim k n -> length x = n ->
  (cone_constraint k x = Ok (Fin 0) /\ relax k x) \/ (cone_constraint k x = Ok PInf /\ ~ relax k x).
Proof. exact cone_constraint_sound. Qed.
Print Assumptions C60_exact_acceptance_set.
Theorem C60_objective : forall k n g x, cone_dim k n -> base_wf n g -> length x = n ->
  cone_objective (mk_cone k g) x false = Ok (base_doc n (fun _ => Fin 0) g x) /\
  (in_cone k (vsub x (base_off n g)) -> cone_objective (mk_cone k g) x true = Ok (base_doc n (cone_fun k) g x)) /\
  (~ relax k (vsub x (base_off n g)) -> cone_objective (mk_cone k g) x true = Ok PInf).
Proof. exact cone_objective_correct. Qed.
Print Assumptions C60_objective.
