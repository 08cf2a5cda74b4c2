(** C93: check_subgradient. *)
From Coq Require Import Reals List Lra Lia Bool ZArith.
From Verif Require Import Vec Spec M_quad M_prox M_semi SpecAtom M_shift SpecBase SpecMode SpecModed M_mode SpecCheck M_check SpecCone M_cones SpecSlope M_slope SpecSlopeAtom M_group SpecGroup SpecGatom
  P_gauge P_cones P_check P_check2 P_check3 P_check4.
Import ListNotations.
Local Open Scope R_scope.

(** ** C93. The two values returned are equal, and tell the seminorm of the minimizer (Lagrange mode) or the dual seminorm of its residual (bound mode). *)
(** The classes of seminorms.py; the offset and the quadratic of the atom play no role. *)
Theorem C93_agrees_partial : forall n a m z, (1 <= n)%nat -> atom_wf n a -> atom_mode a m -> 0 < parameter m -> length z = n ->
  exists u v, check_subgradient a z = Ok (v, Fin v) /\ solves_prox n (doc_seminorm (klass a)) m z u /\ measured (doc_seminorm (klass a)) (doc_seminorm (pair_class (klass a))) m z u = Fin v.
Proof. exact check_agrees. Qed.
Print Assumptions C93_agrees_partial.
Example C93_case : exists a, new_atom CSup 2 None (Some 3) (Some [1; 0]) None = Ok a /\ atom_wf 2 a /\ atom_mode a (Bound 3) /\ 0 < parameter (Bound 3).
Proof.
  unfold new_atom. cbn. destruct (Rlt_dec 3 0); [lra|]. destruct (Req_EM_T 1 0); [lra|]. eexists. split; [reflexivity|]. split; [|split; [split; reflexivity|lra]].
  split; auto. split; [|split; cbn; auto]. cbn. intros o E. injection E as <-. split; auto. intros C. injection C. lra.
Qed.
(** slope with a multiplier and slope_conjugate with a bound (the other modes raise, C18) *)
Theorem C93_slope_partial : forall n iso argsort d a m z, iso_contract iso -> argsort_contract argsort -> slope_wf n a m -> dual_of n (s_weights a) d ->
  s_class a = SSlope /\ (exists lam, m = Lagrange lam) \/ s_class a = SSlopeConj /\ (exists b, m = Bound b) -> 0 < parameter m -> length z = n ->
  exists u v, slope_check_subgradient iso argsort a z = Ok (v, Fin v) /\ solves_prox n (slope_sfun (s_class a) (s_weights a) d) m z u /\
    measured (slope_sfun (s_class a) (s_weights a) d) (slope_sfun (slope_pair (s_class a)) (s_weights a) d) m z u = Fin v.
Proof. exact slope_check_agrees. Qed.
Print Assumptions C93_slope_partial.
(** group_lasso and group_lasso_dual *)
Theorem C93_group_partial : forall n a m z, gatom_wf n a m -> g_groups a <> [] -> weights_regular (g_groups a) (g_weights a) -> 0 < parameter m -> length z = n ->
  exists u v, gatom_check_subgradient a z = Ok (v, Fin v) /\ solves_prox n (gfun (g_dual a) (g_groups a) (g_weights a)) m z u /\
    measured (gfun (g_dual a) (g_groups a) (g_weights a)) (gfun (negb (g_dual a)) (g_groups a) (g_weights a)) m z u = Fin v.
Proof. exact gatom_check_agrees. Qed.
Print Assumptions C93_group_partial.
Example C93_group_case : let a := mk_gatom true [1%Z; 1%Z; 2%Z] (fun _ => Some 2) (mk_moded (Some 1) None (mk_base 3 None no_quadratic)) in
  gatom_wf 3 a (Lagrange 1) /\ g_groups a <> [] /\ weights_regular (g_groups a) (g_weights a).
Proof.
  cbn zeta. assert (T : / 10 ^ 20 <= 2). { apply Rle_trans with (/ 1); [apply Rinv_le_contravar; [lra|]|lra]. simpl. lra. }
  split; [|split; [discriminate|intros g _; cbn; exact T]]. split; auto. split; [|intros g _; cbn; lra]. split; auto. split; auto. split; [cbn; lra|]. split; auto. split; [discriminate|split; cbn; auto].
Qed.
(** A multiplier or bound 0 is legal for the atoms, but the method divides by it. *)
Theorem C93_zero_refuted : forall n a m z, (1 <= n)%nat -> atom_wf n a -> atom_mode a m -> parameter m = 0 -> length z = n -> check_subgradient a z = Err NaNResult.
Proof. exact check_zero. Qed.
Print Assumptions C93_zero_refuted.

(** ** What a passed check says about a proximal map: the answer U is close to the minimizer V, by the difference of the two values and the tolerance 1e-5, ... *)
Theorem C93_sound_partial : forall n a m z, (1 <= n)%nat -> atom_wf n a -> atom_mode a m -> 0 < parameter m -> length z = n ->
  forall U v w V x y, length U = n -> check_with (fun _ _ => Ok U) a z = Ok (v, w) -> doc_seminorm (klass a) U = Fin x -> doc_seminorm (pair_class (klass a)) (vsub z U) = Fin y -> solves_prox n (doc_seminorm (klass a)) m z V ->
  exists w', w = Fin w' /\ measured (doc_seminorm (klass a)) (doc_seminorm (pair_class (klass a))) m z U = Fin w' /\ sqn (vsub U V) <= / 10 ^ 5 * dot (vsub z V) V + parameter m * (w' - v).
Proof. exact check_sound. Qed.
Print Assumptions C93_sound_partial.
(** ... and is the minimizer if the tolerance was not used. *)
Theorem C93_exact_partial : forall n a m z, (1 <= n)%nat -> atom_wf n a -> atom_mode a m -> 0 < parameter m -> length z = n ->
  forall U v V l, length U = n -> check_with (fun _ _ => Ok U) a z = Ok (v, Fin v) -> measured (doc_seminorm (klass a)) (doc_seminorm (pair_class (klass a))) m z U <> PInf ->
  limited (doc_seminorm (klass a)) (doc_seminorm (pair_class (klass a))) m z U = Fin l -> l <= parameter m -> solves_prox n (doc_seminorm (klass a)) m z V -> U = V.
Proof. exact check_exact. Qed.
Print Assumptions C93_exact_partial.
(** The constraints in the seminorms are not looked at: for these four classes wrong answers pass. *)
Theorem C93_unchecked_refuted : forall c, c = CPosPart \/ c = CConMax \/ c = CConPosPart \/ c = CMaxPos -> exists a z U v, new_atom c 2 (Some 1) None None None = Ok a /\ length U = 2%nat /\
  check_with (fun _ _ => Ok U) a z = Ok (v, Fin v) /\ ~ solves_prox 2 (doc_seminorm c) (Lagrange 1) z U.
Proof. exact check_unchecked. Qed.
Print Assumptions C93_unchecked_refuted.

(** ** Cones: both values are 0 ... *)
Theorem C93_cone_partial : forall k n g z, cone_dim k n -> k <> KL2 -> k <> KL2Polar -> base_wf n g -> length z = n -> cone_check_subgradient (mk_cone k g) z = Ok (0, 0).
Proof. exact cone_check_agrees. Qed.
Print Assumptions C93_cone_partial.
Example C93_cone_case : cone_dim KL1 3 /\ base_wf 3 (mk_base 3 (Some [1; 0; 0]) no_quadratic).
Proof. split; [cbn; lia|]. split; auto. split; [|split; cbn; auto]. cbn. intros o E. injection E as <-. split; auto. intros C. injection C. lra. Qed.
(** ... but that says little: the answer 0 always passes, ... *)
Theorem C93_cone_blind_refuted : forall k n g z, base_wf n g -> length z = n -> cone_check_with (fun _ _ => Ok (zeros n)) (mk_cone k g) z = Ok (0, 0).
Proof. exact cone_check_blind. Qed.
Print Assumptions C93_cone_blind_refuted.
(** ... and so does the wrong projection of l2_epigraph (C14). *)
Theorem C93_cone_l2_refuted : cone_check_subgradient (new_cone KL2 2 None None) [3; 5] = Ok (0, 0) /\ cone_proximal (new_cone KL2 2 None None) (AQuad (centered [3; 5])) = Ok [4; 4] /\ ~ is_proj 2 (in_cone KL2) [3; 5] [4; 4].
Proof. exact cone_check_l2. Qed.
Print Assumptions C93_cone_l2_refuted.
