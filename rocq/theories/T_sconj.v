(** C52: smooth conjugates, the class conjugate, and smoothed atoms. *)
From Coq Require Import Reals List Lra Lia Arith Bool.
From Verif Require Import M_affine SpecAffine P_affine M_loss M_smooth SpecSmooth Vec Spec SpecConvex M_quad P_quad M_prox M_semi SpecAtom M_shift SpecBase M_afatom SpecCone M_cones M_fista SpecFista M_problem SpecProblem M_sconj SpecSconj P_sconj.
Import ListNotations.
Local Open Scope R_scope.

(** ** The objects covered: seminorm atoms and cones, with any quadratic of their own. *)
Theorem C52_atoms : forall n a m, (1 <= n)%nat -> atom_wf n a -> mode_ok m -> atom_mode a m -> (forall l, m = Lagrange l -> klass a <> CConMax /\ klass a <> CConPosPart) -> center_ok n (a_quadratic a) ->
  curved_obj n (fun x => mode_fun (klass a) m (vsub x (atom_off n a))) (a_quadratic a) (of_atom a).
Proof. exact atom_curved. Qed.
Print Assumptions C52_atoms.
Theorem C52_cones : forall n c, cone_dim (c_class c) n -> c_class c <> KL2 -> c_class c <> KL2Polar -> base_wf n (c_base c) -> center_ok n (b_quadratic (c_base c)) ->
  curved_obj n (fun x => cone_fun (c_class c) (vsub x (base_off n (c_base c)))) (b_quadratic (c_base c)) (of_cone c).
Proof. exact cone_curved. Qed.
Print Assumptions C52_cones.

(** ** smooth_conjugate(atom, quadratic): supremum, maximizer, gradient, Lipschitz constant. *)
Theorem C52_smooth_conjugate : forall n H own A s, curved_obj n H own A -> q_shape n s -> center_ok n s -> 0 < coef own + coef s ->
  exists C, new_sconj A own (Some s) = Ok C /\ sc_lipschitz C = 1 / (coef own + coef s) /\
    exists f g, evaluates n (sc_eval C) f g /\ smooth_conjugate_of n (plus_quad n (plus_quad n H own) s) (sc_lipschitz C) f g.
Proof. exact sconj_spec. Qed.
Print Assumptions C52_smooth_conjugate.
(** The conjugate property of an object with a quadratic of its own *)
Theorem C52_own : forall n H own A, curved_obj n H own A -> 0 < coef own ->
  exists C, new_sconj A own None = Ok C /\ sc_lipschitz C = 1 / coef own /\ exists f g, evaluates n (sc_eval C) f g /\ smooth_conjugate_of n (plus_quad n H own) (sc_lipschitz C) f g.
Proof. exact own_sconj. Qed.
Print Assumptions C52_own.
(** conjugate(atom, quadratic, negate): the same function at x or -x. *)
Theorem C52_conjugate : forall n H own A s b, curved_obj n H own A -> q_shape n s -> center_ok n s -> 0 < coef own + coef s ->
  exists C, new_conj A own (Some s) b = Ok C /\
    exists f g, evaluates n (conj_eval C) (fun x => f (if b then vopp x else x)) (fun x => if b then vopp (g (vopp x)) else g x) /\
      smooth_conjugate_of n (plus_quad n (plus_quad n H own) s) (1 / (coef own + coef s)) f g.
Proof. exact conj_spec. Qed.
Print Assumptions C52_conjugate.
(** No strong convexity: the constructor raises. *)
Theorem C52_needs_curvature : forall n own s A b, q_shape n own -> q_shape n s -> center_ok n own -> center_ok n s -> coef own + coef s = 0 ->
  new_sconj A own (Some s) = Err ValueError /\ new_conj A own (Some s) b = Err ValueError.
Proof. exact needs_curvature. Qed.
Print Assumptions C52_needs_curvature.

(** ** atom.smoothed(q): the conjugate of (atom's conjugate + q). *)
Theorem C52_smoothed_atom : forall n a m sq, (1 <= n)%nat -> atom_wf n a -> mode_ok m -> atom_mode a m -> coef (a_quadratic a) = 0 -> dual_value_ok (klass a) m ->
  q_shape n sq -> center_ok n sq -> 0 < coef sq ->
  exists C G f g, atom_smoothed a sq = Ok C /\ sc_lipschitz C = 1 / coef sq /\ (forall u, length u = n -> is_fenchel n (atom_doc n a m) u (G u)) /\ (forall x, length x = n -> is_fenchel n G x (atom_doc n a m x)) /\
    evaluates n (sc_eval C) f g /\ smooth_conjugate_of n (plus_quad n G sq) (1 / coef sq) f g.
Proof. exact atom_smoothed_spec. Qed.
Print Assumptions C52_smoothed_atom.
Theorem C52_smoothed_cone : forall n c sq, cone_dim (c_class c) n -> c_class c <> KL2 -> c_class c <> KL2Polar -> base_wf n (c_base c) -> coef (b_quadratic (c_base c)) = 0 ->
  q_shape n sq -> center_ok n sq -> 0 < coef sq -> let K := base_doc n (cone_fun (c_class c)) (c_base c) in
  exists C G f g, cone_smoothed c sq = Ok C /\ sc_lipschitz C = 1 / coef sq /\ (forall u, length u = n -> is_fenchel n K u (G u)) /\ (forall x, length x = n -> is_fenchel n G x (K x)) /\
    evaluates n (sc_eval C) f g /\ smooth_conjugate_of n (plus_quad n G sq) (1 / coef sq) f g.
Proof. exact cone_smoothed_spec. Qed.
Print Assumptions C52_smoothed_cone.
Theorem C52_smoothed_affine : forall A m sq Lo, (1 <= t_out (aa_map A))%nat -> atom_wf (t_out (aa_map A)) (aa_atom A) -> mode_ok m -> atom_mode (aa_atom A) m -> coef (a_quadratic (aa_atom A)) = 0 -> dual_value_ok (klass (aa_atom A)) m ->
  true_adjoint (aa_map A) -> (forall x, length x = t_in (aa_map A) -> t_aff (aa_map A) x = t_lin (aa_map A) x) -> 0 <= Lo -> opnorm_bound (aa_map A) Lo ->
  q_shape (t_out (aa_map A)) sq -> center_ok (t_out (aa_map A)) sq -> 0 < coef sq ->
  exists C G f g F Gr, aa_smoothed A sq = Ok C /\ (forall u, length u = t_out (aa_map A) -> is_fenchel (t_out (aa_map A)) (atom_doc (t_out (aa_map A)) (aa_atom A) m) u (G u)) /\
    (forall x, length x = t_out (aa_map A) -> is_fenchel (t_out (aa_map A)) G x (atom_doc (t_out (aa_map A)) (aa_atom A) m x)) /\
    smooth_conjugate_of (t_out (aa_map A)) (plus_quad (t_out (aa_map A)) G sq) (1 / coef sq) f g /\ evaluates_affine (t_in (aa_map A)) (asc_eval C) F Gr /\ (forall x, length x = t_in (aa_map A) -> F x = f (t_lin (aa_map A) x)) /\
    convex_on (t_in (aa_map A)) F /\ gradient_of (t_in (aa_map A)) F Gr /\ lipschitz_map (t_in (aa_map A)) Gr (Lo * (1 / coef sq)).
Proof. exact aa_smoothed_spec. Qed.
Print Assumptions C52_smoothed_affine.
(** Error of the smoothing: at most the largest value of the smoothing term over the domain of the conjugate. *)
Theorem C52_sandwich : forall n G sq L f g x h B, smooth_conjugate_of n (plus_quad n G sq) L f g -> length x = n -> is_fenchel n G x (Fin h) ->
  (forall u, length u = n -> 0 <= q_denot n sq u) -> (forall u r, length u = n -> G u = Fin r -> q_denot n sq u <= B) -> h - B <= f x <= h.
Proof. exact smoothed_sandwich. Qed.
Print Assumptions C52_sandwich.
(** An atom with a curved quadratic of its own cannot be smoothed: the method raises. *)
Theorem C52_curved_raises : forall a sq, coef (a_quadratic a) <> 0 -> coef sq <> 0 -> atom_smoothed a sq = Err TypeError.
Proof. exact curved_raises. Qed.
Print Assumptions C52_curved_raises.

(** ** Instances: an l1 atom with an offset and a linear term, smoothed, alone and after a 2 x 2 matrix; a second-order cone *)
Definition sm_quad : iq := mk_iq 2 FNone FNone 0.
Definition sm_atom : atom := mk_atom CL1 2 (Some 3) None (Some [1; -1]) (mk_iq 0 FNone (FVec [1; 2]) 0).
Lemma sm_atom_wf : atom_wf 2 sm_atom.
Proof. split; [reflexivity|]. split; [intros o E; injection E as <-; split; [reflexivity|]; intros F; cbn in F; injection F; intros; lra|]. split; cbn; auto. Qed.
Example C52_instance : atom_wf 2 sm_atom /\ mode_ok (Lagrange 3) /\ atom_mode sm_atom (Lagrange 3) /\ coef (a_quadratic sm_atom) = 0 /\ dual_value_ok (klass sm_atom) (Lagrange 3) /\ q_shape 2 sm_quad /\ center_ok 2 sm_quad /\ 0 < coef sm_quad.
Proof. split; [exact sm_atom_wf|]. repeat split; cbn; auto; try lra; try discriminate. Qed.
Example C52_instance_smoothed : exists C f g, atom_smoothed sm_atom sm_quad = Ok C /\ evaluates 2 (sc_eval C) f g /\ convex_on 2 f /\ gradient_of 2 f g /\ lipschitz_map 2 g (1 / 2).
Proof.
  destruct C52_instance as (H1 & H2 & H3 & H4 & H5 & H6 & H7 & H8). destruct (C52_smoothed_atom 2 sm_atom (Lagrange 3) sm_quad ltac:(lia) H1 H2 H3 H4 H5 H6 H7 H8) as (C & G & f & g & E & _ & _ & _ & Ev & S & Cv & Gr & Lp).
  exists C, f, g. auto.
Qed.
Definition sm_map : transform := matrix [[1; 2]; [0; 1]] 2 None.
Example C52_instance_affine : true_adjoint sm_map /\ (forall x, length x = t_in sm_map -> t_aff sm_map x = t_lin sm_map x) /\ opnorm_bound sm_map 10 /\ t_out sm_map = 2%nat.
Proof.
  assert (B : built sm_map) by (apply b_matrix; [repeat constructor|discriminate]). split; [apply (built_good _ B)|]. split; [|split; [|reflexivity]].
  - intros x Lx. reflexivity.
  - intros [|x [|y [|z l]]] Lx; try discriminate. cbn. unfold sqn, dot. cbn. nra.
Qed.
Example C52_instance_cone : cone_dim KNonneg 3 /\ base_wf 3 (mk_base 3 None (mk_iq 0 FNone (FVec [1; 2; 3]) 0)).
Proof. split; [cbn; lia|]. split; [reflexivity|]. split; [intros o E; discriminate|]. split; exact I || reflexivity. Qed.
Example C52_instance_sandwich : (forall u, length u = 2%nat -> 0 <= q_denot 2 sm_quad u) /\ forall u, length u = 2%nat -> ell1 u <= 1 -> q_denot 2 sm_quad u <= 1.
Proof.
  split; intros [|x [|y [|z l]]] Lu; try discriminate; unfold q_denot, quad_fun; cbn; unfold sqn, dot; cbn; [nra|]. intros H. unfold Rabs in H. destruct (Rcase_abs x), (Rcase_abs y); nra.
Qed.
