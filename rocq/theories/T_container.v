(** C39-C41: containers and dual problems. *)
From Coq Require Import Reals List Lra Lia Arith Bool.
From Verif Require Import M_affine SpecAffine P_affine M_loss SpecLoss M_smooth SpecSmooth Vec Spec SpecConvex M_quad P_quad M_semi SpecAtom P_semi P_conj M_shift SpecBase M_afatom SpecCone M_cones P_cones M_fista SpecFista M_problem SpecProblem P_problem P_separable P_problem2 M_sconj SpecSconj M_container SpecContainer P_dual P_container P_container2 P_container3 P_container4 P_container5.
Import ListNotations.
Local Open Scope R_scope.

(** ** What counts as a nonsmooth part *)
(** An atom behind any linear map whose adjoint is right (C29), an atom by itself, a cone by itself; the function G of the dual object is the
    conjugate of the part and has it as conjugate. *)
Theorem C41_affine_parts : forall n A k m, linear_map n (aa_map A) -> atom_wf (t_out (aa_map A)) (aa_atom A) -> mode_ok m -> atom_mode (aa_atom A) m -> coef (a_quadratic (aa_atom A)) = 0 ->
  value_ok (klass (aa_atom A)) m -> value_ok (pair_class (klass (aa_atom A))) (dual_mode m) ->
  match k with
  | TIdentity => t_out (aa_map A) = n /\ forall x, length x = n -> t_lin (aa_map A) x = x
  | TSelector idx => t_out (aa_map A) = length idx /\ legal_groups n [idx] /\ forall x, length x = n -> t_lin (aa_map A) x = part_of x idx
  | TGeneral => True
  end ->
  exists p d, affine_part A k = Ok p /\ np_map p = aa_map A /\ np_kind p = k /\ get_conjugate (aa_atom A) = Ok d /\
    exact_part n (atom_doc (t_out (aa_map A)) d (dual_mode m)) (atom_doc (t_out (aa_map A)) (aa_atom A) m) p /\
    forall u, length u = t_out (aa_map A) -> is_fenchel (t_out (aa_map A)) (atom_doc (t_out (aa_map A)) (aa_atom A) m) u (atom_doc (t_out (aa_map A)) d (dual_mode m) u).
Proof. exact affine_part_exact. Qed.
Print Assumptions C41_affine_parts.
Theorem C41_atom_parts : forall n a m, (1 <= n)%nat -> atom_wf n a -> mode_ok m -> atom_mode a m -> coef (a_quadratic a) = 0 -> value_ok (klass a) m -> value_ok (pair_class (klass a)) (dual_mode m) ->
  exists p d, atom_part a = Ok p /\ np_kind p = TIdentity /\ get_conjugate a = Ok d /\ exact_part n (atom_doc n d (dual_mode m)) (atom_doc n a m) p /\
    (forall x, length x = n -> t_lin (np_map p) x = x) /\ forall u, length u = n -> is_fenchel n (atom_doc n a m) u (atom_doc n d (dual_mode m) u).
Proof. exact atom_part_exact. Qed.
Print Assumptions C41_atom_parts.
Theorem C41_cone_parts : forall n c, (1 <= n)%nat -> cone_dim (c_class c) n -> c_class c <> KL2 -> c_class c <> KL2Polar -> base_wf n (c_base c) -> coef (b_quadratic (c_base c)) = 0 ->
  exists p d, cone_part c = Ok p /\ np_kind p = TIdentity /\ cone_conjugate c = Some d /\ exact_part n (base_doc n (cone_fun (c_class d)) (c_base d)) (base_doc n (cone_fun (c_class c)) (c_base c)) p /\
    (forall x, length x = n -> t_lin (np_map p) x = x) /\ forall u, length u = n -> is_fenchel n (base_doc n (cone_fun (c_class c)) (c_base c)) u (base_doc n (cone_fun (c_class d)) (c_base d) u).
Proof. exact cone_part_exact. Qed.
Print Assumptions C41_cone_parts.

(** ** C39 *)
(** The value is the sum of all losses, of all penalties behind their maps, of the quadratics of the losses and of the container's own. *)
Theorem C39_container_value : forall n smooths Gs Hs parts q0 K x chk, sound_parts n smooths Gs Hs parts q0 -> container_of n smooths parts q0 K -> length x = n -> (exists r, parts_fun Hs parts x = Fin r) ->
  ct_nonsmooth K x chk = Ok (container_fun n smooths Hs parts q0 x) /\ ct_func K x = smooth_sum smooths x /\ ct_value K x chk = objective (smooth_sum smooths) (container_fun n smooths Hs parts q0) x.
Proof. exact container_value. Qed.
Print Assumptions C39_container_value.
(** One penalty, on the vector itself or on a selection of it: the solver sees that sum, exactly. *)
Theorem C39_container_solver : forall P Ld n smooths Gs Hs parts q0 K, sound_parts n smooths Gs Hs parts q0 -> Forall (good_smooth n) smooths -> 0 <= coef q0 -> container_of n smooths parts q0 K -> st_kind (ct_stack K) <> TGeneral ->
  exact_problem n (smooth_sum smooths) (container_fun n smooths Hs parts q0) (ct_composite P Ld K).
Proof. exact container_exact. Qed.
Print Assumptions C39_container_solver.

(** A container with no loss is refused, though a sum of penalties alone is a legal problem; the error names the cause only when there is nothing at all. *)
Theorem C39_no_loss : forall n parts, new_container n [] parts = Err (match parts with [] => ValueError | _ => IndexError end).
Proof. exact no_loss. Qed.
Print Assumptions C39_no_loss.

(** ** C40 *)
(** What solve returns and stores: the coefficients of its run are returned and kept for the next one, nothing else changes, and the value returned is the documented objective at them. *)
Theorem C40_container_returns : forall loops fuel prm P Ld n smooths Gs Hs parts q0 K q K' v x, sound_parts n smooths Gs Hs parts q0 -> container_of n smooths parts q0 K -> ct_solve loops fuel prm P Ld K q = (K', Ok (v, x)) ->
  ct_coefs K' = x /\ (ct_smooth K' = ct_smooth K /\ ct_parts K' = ct_parts K /\ ct_stack K' = ct_stack K /\ ct_quadratic K' = ct_quadratic K /\ ct_smoothq K' = ct_smoothq K) /\
  (exists s, fit loops fuel prm (ct_composite P Ld K) (ct_coefs K) None false = Ok s /\ x = s_coefs s) /\
  (length x = n -> (exists r, parts_fun Hs parts x = Fin r) -> v = objective (smooth_sum smooths) (container_fun n smooths Hs parts q0) x).
Proof. exact container_returns. Qed.
Print Assumptions C40_container_returns.
(** container.solve(q) does not use q. Here it returns 0, the minimizer of |x|, for every setting of the solver meeting the conditions;
    the minimizer of |x| + q(x) is 2. *)
Theorem C40_container_refuted : exists p K, affine_part (mk_affine_atom one_l1 (identity 1)) TIdentity = Ok p /\ container_of 1 [SZero 1 no_quad] [p] no_quad K /\
  (forall loops fuel prm P Ld, ct_solve loops fuel prm P Ld K (Some three_q) = ct_solve loops fuel prm P Ld K None) /\
  (forall loops fuel prm P Ld K' v x, p_backtrack prm = true -> 0 < p_start_step prm -> p_monotonicity prm = false -> p_restart prm = None -> (1 <= Nat.min (min_of prm) (max_of prm))%nat -> (max_of prm <= 99)%nat -> ct_solve loops fuel prm P Ld K (Some three_q) = (K', Ok (v, x)) -> x = [0] /\ v = Fin 0) /\
  (forall a, ct_value K [a] false = Fin (Rabs a)) /\ (forall a, Rabs 2 + q_denot 1 three_q [2] + / 2 * (a - 2) * (a - 2) <= Rabs a + q_denot 1 three_q [a]) /\
  exists prm fuel, (p_backtrack prm = true /\ 0 < p_start_step prm /\ p_monotonicity prm = false /\ p_restart prm = None /\ (1 <= Nat.min (min_of prm) (max_of prm))%nat /\ (max_of prm <= 99)%nat) /\ forall P Ld, exists K' v x, ct_solve (max_of prm) fuel prm P Ld K (Some three_q) = (K', Ok (v, x)).
Proof. exact solve_wrong. Qed.
Print Assumptions C40_container_refuted.

(** ** C41 *)
(** dual_problem: the solver sees f*(-D'u) + g*(u) with the right gradient, proximal map and Lipschitz constant, and the attribute primal taken
    at a minimizer is the unique minimizer of f(x) + g(Dx). *)
Theorem C41_dual_problem : forall n K L f g D G H A eval Lo lip, evaluates n eval f g -> smooth_conjugate_of n K L f g -> 0 <= L -> linear_map n D -> exact_obj (t_out D) G A -> (forall y, length y = t_out D -> is_fenchel (t_out D) G y (H y)) -> 0 <= Lo -> opnorm_bound D Lo ->
  let P := mk_dproblem eval D A in let F := fun u => f (vopp (t_adj D u)) in
  exact_problem (t_out D) F G (dp_composite P lip) /\ lipschitz_map (t_out D) (c_grad (dp_composite P lip)) (Lo * L) /\
  (forall u r chk, length u = t_out D -> G u = Fin r -> dp_objective P u chk = objective F G u) /\
  forall u p, is_argmin (t_out D) (objective F G) u -> dp_primal P u = Ok p -> is_unique_argmin n (primal_fun K D H) p.
Proof. exact dual_problem_recovers. Qed.
Print Assumptions C41_dual_problem.
(** The container, when no quadratic is stored in it or in its losses: the dual problem it sets up is F(u) + sum_i G_i(u_i), where F(u) is the
    conjugate of q at -D'u; a minimizer gives the unique minimizer of q(v) + sum_i h_i(D_i v); any other u gives a point whose distance
    from it is bounded by the duality gap, and the gap of the minimizers is 0. *)
Theorem C41_container_partial : forall n smooths Gs Hs parts q0 K c l gam L, sound_parts n smooths Gs Hs parts q0 -> container_of n smooths parts q0 K -> 0 < L -> length c = n -> length l = n ->
  no_quadratic n q0 -> (forall x, length x = n -> quads_sum n smooths x = 0) -> total_coef smooths q0 (mk_iq L (FVec c) (FVec l) gam) = L -> let q := mk_iq L (FVec c) (FVec l) gam in
  exists D F, let T := dp_map D in ct_dual_problem K q = Ok D /\ T = st_map (ct_stack K) /\ (forall u, length u = t_out T -> is_fenchel n (fun x => Fin (q_denot n q x)) (vopp (t_adj T u)) (Fin (F u))) /\
    (forall lip Lo, 0 <= Lo -> opnorm_bound T Lo -> exact_problem (t_out T) F (dual_fun Gs parts) (dp_composite D lip) /\ lipschitz_map (t_out T) (c_grad (dp_composite D lip)) (Lo / L)) /\
    (forall u, is_argmin (t_out T) (objective F (dual_fun Gs parts)) u -> exists v, ct_point K q u = Ok v /\ is_unique_argmin n (plus_quad n (parts_fun Hs parts) q) v) /\
    (forall u r v0 p, length u = t_out T -> objective F (dual_fun Gs parts) u = Fin r -> length v0 = n -> plus_quad n (parts_fun Hs parts) q v0 = Fin p -> exists v, ct_point K q u = Ok v /\ L / 2 * sqn (vsub v0 v) <= r + p) /\
    (forall u r v0 p, is_argmin (t_out T) (objective F (dual_fun Gs parts)) u -> objective F (dual_fun Gs parts) u = Fin r -> is_argmin n (plus_quad n (parts_fun Hs parts) q) v0 -> plus_quad n (parts_fun Hs parts) q v0 = Fin p -> r + p = 0).
Proof. exact container_recovers. Qed.
Print Assumptions C41_container_partial.
(** The whole proximal step with restarts switched off: after k iterations the squared distance to the exact point is O(1/k^2). *)
Theorem C41_run_partial : forall P Ld n smooths Gs Hs parts q0 K c l gam L, sound_parts n smooths Gs Hs parts q0 -> container_of n smooths parts q0 K -> 0 < L -> length c = n -> length l = n ->
  no_quadratic n q0 -> (forall x, length x = n -> quads_sum n smooths x = 0) -> total_coef smooths q0 (mk_iq L (FVec c) (FVec l) gam) = L -> let q := mk_iq L (FVec c) (FVec l) gam in
  st_kind (ct_stack K) = TGeneral -> 0 < Ld -> opnorm_bound (st_map (ct_stack K)) Ld ->
  p_backtrack P = false -> p_monotonicity P = false -> p_restart P = None -> 0 < p_start_step P -> (1 <= Nat.min (min_of P) (max_of P))%nat ->
  (exists r, dual_fun Gs parts (zeros (t_out (st_map (ct_stack K)))) = Fin r) ->
  forall D F u, ct_dual_problem K q = Ok D -> (forall u, length u = t_out (dp_map D) -> is_fenchel n (fun x => Fin (q_denot n q x)) (vopp (t_adj (dp_map D) u)) (Fin (F u))) -> is_argmin (t_out (dp_map D)) (objective F (dual_fun Gs parts)) u ->
  exists v v0, ct_proximal P Ld K q = Ok v /\ is_unique_argmin n (plus_quad n (parts_fun Hs parts) q) v0 /\
    sqn (vsub v0 v) <= 4 * Ld * sqn u / (L * L * ((INR (Nat.min (min_of P) (max_of P)) + 1) * (INR (Nat.min (min_of P) (max_of P)) + 1))).
Proof. exact container_run. Qed.
Print Assumptions C41_run_partial.
(** With rejection of steps that increase the dual objective: a run ends at max_its or by the tolerance test, never for bad steps, and the squared distance to the exact point is O(1/k^2) in the number k of iterations since the last rejection. *)
Theorem C41_run_rejecting_partial : forall P Ld n smooths Gs Hs parts q0 K c l gam L, sound_parts n smooths Gs Hs parts q0 -> container_of n smooths parts q0 K -> 0 < L -> length c = n -> length l = n ->
  no_quadratic n q0 -> (forall x, length x = n -> quads_sum n smooths x = 0) -> total_coef smooths q0 (mk_iq L (FVec c) (FVec l) gam) = L -> let q := mk_iq L (FVec c) (FVec l) gam in
  st_kind (ct_stack K) = TGeneral -> 0 < Ld -> opnorm_bound (st_map (ct_stack K)) Ld ->
  p_backtrack P = false -> p_restart P = None -> 0 < p_start_step P ->
  (exists r, dual_fun Gs parts (zeros (t_out (st_map (ct_stack K)))) = Fin r) ->
  forall D F u, ct_dual_problem K q = Ok D -> (forall u, length u = t_out (dp_map D) -> is_fenchel n (fun x => Fin (q_denot n q x)) (vopp (t_adj (dp_map D) u)) (Fin (F u))) -> is_argmin (t_out (dp_map D)) (objective F (dual_fun Gs parts)) u ->
  exists s tr j v v0, let C := dp_composite D (Ld / L) in let z := zeros (t_out (dp_map D)) in
    fit (max_of P) 0 P C z None false = Ok s /\ explains C P z s tr /\ (j = 0%nat \/ forall d, nth (j - 1) (full_trace s tr) d = nth j (full_trace s tr) d) /\
    (Nat.min (min_of P) (max_of P) <= s_it s <= max_of P)%nat /\ (s_it s = max_of P \/ close_enough C P s (s_working s)) /\
    ct_proximal P Ld K q = Ok v /\ is_unique_argmin n (plus_quad n (parts_fun Hs parts) q) v0 /\ (j <= s_it s)%nat /\
    (j <> s_it s -> forall d, sqn (vsub v0 v) <= 4 * Ld * sqn (vsub (fst (nth j (full_trace s tr) d)) u) / (L * L * ((INR (s_it s - j) + 1) * (INR (s_it s - j) + 1)))).
Proof. exact container_run_rejecting. Qed.
Print Assumptions C41_run_rejecting_partial.
(** The settings used when none are given: between 5 and 5000 iterations, tolerance 1e-14 on the dual objective. *)
Theorem C41_default_partial : forall Ld n smooths Gs Hs parts q0 K c l gam L, sound_parts n smooths Gs Hs parts q0 -> container_of n smooths parts q0 K -> 0 < L -> length c = n -> length l = n ->
  no_quadratic n q0 -> (forall x, length x = n -> quads_sum n smooths x = 0) -> total_coef smooths q0 (mk_iq L (FVec c) (FVec l) gam) = L -> let q := mk_iq L (FVec c) (FVec l) gam in
  st_kind (ct_stack K) = TGeneral -> 0 < Ld -> opnorm_bound (st_map (ct_stack K)) Ld ->
  (exists r, dual_fun Gs parts (zeros (t_out (st_map (ct_stack K)))) = Fin r) ->
  forall D F u, ct_dual_problem K q = Ok D -> (forall u, length u = t_out (dp_map D) -> is_fenchel n (fun x => Fin (q_denot n q x)) (vopp (t_adj (dp_map D) u)) (Fin (F u))) -> is_argmin (t_out (dp_map D)) (objective F (dual_fun Gs parts)) u ->
  exists s tr j v v0 a, let C := dp_composite D (Ld / L) in let z := zeros (t_out (dp_map D)) in let P := mk_params (Some (/ 10 ^ 14)) (Some 5%nat) (Some 5000%nat) true 1 None false true false in
    fit 5000 0 P C z None false = Ok s /\ explains C P z s tr /\ (j = 0%nat \/ forall d, nth (j - 1) (full_trace s tr) d = nth j (full_trace s tr) d) /\
    (5 <= s_it s <= 5000)%nat /\ s_obj s = Fin a /\ (s_it s = 5000%nat \/ exists b, total C (s_working s) false = Fin b /\ Rabs (b - a) < / 10 ^ 14 * Rmax (Rabs a) 1) /\
    ct_proximal default_prox Ld K q = Ok v /\ is_unique_argmin n (plus_quad n (parts_fun Hs parts) q) v0 /\ (j <= s_it s)%nat /\
    (j <> s_it s -> forall d, sqn (vsub v0 v) <= 4 * Ld * sqn (vsub (fst (nth j (full_trace s tr) d)) u) / (L * L * ((INR (s_it s - j) + 1) * (INR (s_it s - j) + 1)))).
Proof. exact container_run_default. Qed.
Print Assumptions C41_default_partial.
(** One penalty on the vector itself or on a selection of it: no dual problem is solved; all quadratics are taken into account. *)
Theorem C41_direct : forall P Ld n smooths Gs Hs parts q0 K q, sound_parts n smooths Gs Hs parts q0 -> container_of n smooths parts q0 K -> sound_quad n q -> has_vec q -> 0 < total_coef smooths q0 q -> st_kind (ct_stack K) <> TGeneral ->
  exists v, ct_proximal P Ld K q = Ok v /\ is_argmin n (fun x => ext_add (parts_fun Hs parts x) (total_fun n smooths q0 q x)) v.
Proof. exact exact_branches. Qed.
Print Assumptions C41_direct.
(** With a quadratic in the container the dual is set up with it and the point computed without it: u = 0 minimizes the dual of
    |2v| + (v-2)^2/2 + (v+2)^2/2, whose minimizer is 0; the point returned for it is 2. *)
Theorem C41_quadratic_refuted : exists p K D F G u, affine_part (mk_affine_atom one_l1 twice_map) TGeneral = Ok p /\ container_of 1 [SZero 1 no_quad] [p] left_q K /\ ct_dual_problem K right_q = Ok D /\
  (forall u, length u = 1%nat -> is_fenchel 1 (fun x => Fin (q_denot 1 right_q x + q_denot 1 left_q x)) (vopp (t_adj twice_map u)) (Fin (F u))) /\ (forall u, length u = 1%nat -> is_fenchel 1 (atom_doc 1 one_l1 (Lagrange 1)) u (G u)) /\
  is_argmin 1 (objective F G) u /\ ct_point K right_q u = Ok [2] /\
  (forall a, ext_add (atom_doc 1 one_l1 (Lagrange 1) (t_lin twice_map [a])) (Fin (q_denot 1 right_q [a] + q_denot 1 left_q [a])) = Fin (Rabs (2 * a) + a * a + 4)).
Proof. exact quadratic_lost. Qed.
Print Assumptions C41_quadratic_refuted.
(** A selector that multiplies by 2: the proximal map is computed as if it did not. |2v| + (v-3)^2/2 is least at 1; the answer is 2. *)
Theorem C41_selector_refuted : exists T p K v, selector [0%nat] 1 twice_map = Ok T /\ affine_part (mk_affine_atom one_l1 T) (TSelector [0%nat]) = Ok p /\ container_of 1 [SZero 1 no_quad] [p] no_quad K /\
  (forall P Ld, ct_proximal P Ld K three_q = Ok v) /\ v = [2] /\
  (forall a, np_value p [a] false = Ok (Fin (Rabs (2 * a)))) /\ forall a, Rabs (2 * 1) + q_denot 1 three_q [1] + / 2 * (a - 1) * (a - 1) <= Rabs (2 * a) + q_denot 1 three_q [a].
Proof. exact selector_wrong. Qed.
Print Assumptions C41_selector_refuted.

(** ** Instances *)
(** The fused lasso on R^3: |x|_1 and |Dx|_1 with D the first differences, and a Gaussian loss. *)
Definition fuse_map : transform := matrix [[1; -1; 0]; [0; 1; -1]] 3 None.
Definition fuse_part : affine_atom := mk_affine_atom (mk_atom CL1 2 (Some 2) None None no_quad) fuse_map.
Definition sparse_atom : atom := mk_atom CL1 3 (Some 1) None None no_quad.
Definition fuse_loss : satom := SLoss (Gaussian [1; 2; 4]) 3 1 None [1; 1; 1] no_quad.
Example C41_instance : exists p1 p2 G1 G2 K, atom_part sparse_atom = Ok p1 /\ affine_part fuse_part TGeneral = Ok p2 /\
  sound_parts 3 [fuse_loss] [G1; G2] [atom_doc 3 sparse_atom (Lagrange 1); atom_doc 2 (aa_atom fuse_part) (Lagrange 2)] [p1; p2] no_quad /\ container_of 3 [fuse_loss] [p1; p2] no_quad K /\ st_kind (ct_stack K) = TGeneral /\
  no_quadratic 3 no_quad /\ (forall x, length x = 3%nat -> quads_sum 3 [fuse_loss] x = 0) /\ (forall L c l g, total_coef [fuse_loss] no_quad (mk_iq L c l g) = L) /\
  Forall (good_smooth 3) [fuse_loss] /\ forall x, length x = 3%nat -> exists r, parts_fun [atom_doc 3 sparse_atom (Lagrange 1); atom_doc 2 (aa_atom fuse_part) (Lagrange 2)] [p1; p2] x = Fin r.
Proof.
  destruct (C41_atom_parts 3 sparse_atom (Lagrange 1)) as (p1 & d1 & E1 & K1 & _ & X1 & I1 & _); cbn; auto; try lra; [split; [reflexivity|split; [intros o E; discriminate|split; exact I]]|split; reflexivity|split; discriminate|].
  assert (LM : linear_map 3 fuse_map). { assert (B : built fuse_map) by (apply b_matrix; [repeat constructor|discriminate]). split; [apply (built_good _ B)|]. repeat split; cbn; auto. }
  destruct (C41_affine_parts 3 fuse_part TGeneral (Lagrange 2)) as (p2 & d2 & E2 & M2 & _ & _ & X2 & _); cbn [fuse_part aa_map aa_atom klass a_quadratic no_quad coef]; auto; try lra; [split; [reflexivity|split; [intros o E; discriminate|split; exact I]]|cbn; lra|split; reflexivity|split; discriminate|cbn; auto|].
  assert (NQ : forall x, length x = 3%nat -> q_denot 3 no_quad x = 0). { intros x Lx. unfold q_denot, quad_fun. cbn [no_quad coef center linear_term constant_term fbcast]. rewrite const_vec_0, dot_zeros_l. lra. }
  assert (SP : sound_parts 3 [fuse_loss] [atom_doc 3 d1 (dual_mode (Lagrange 1)); atom_doc 2 d2 (dual_mode (Lagrange 2))] [atom_doc 3 sparse_atom (Lagrange 1); atom_doc 2 (aa_atom fuse_part) (Lagrange 2)] [p1; p2] no_quad).
  { split; [auto|]. split; [discriminate|]. split; [discriminate|]. split; [constructor; [exact X1|constructor; [exact X2|constructor]]|]. split; [constructor; [|constructor]|]; (split; [split; exact I|cbn; auto]). }
  destruct (container_form _ _ _ _ _ _ SP) as (S & sq & _ & _ & EK & _ & _ & _ & _ & _ & _ & _ & _ & _ & _ & ES).
  exists p1, p2, (atom_doc 3 d1 (dual_mode (Lagrange 1))), (atom_doc 2 d2 (dual_mode (Lagrange 2))), (mk_container [fuse_loss] [p1; p2] S no_quad sq (zeros (t_in (st_map S)))).
  split; [exact E1|]. split; [exact E2|]. split; [exact SP|]. split; [apply EK; reflexivity|]. split; [|split; [exact NQ|split; [|split; [|split]]]].
  - cbn [ct_stack]. unfold stacked_dual in ES. cbn [rbind] in ES. destruct (vstack (map np_map [p1; p2])) as [T|]; [|discriminate]. cbn [rbind] in ES. destruct (new_separable _ _ _ _) as [s|]; [|discriminate]. cbn [rmap rbind] in ES. apply Ok_inj in ES. rewrite <- ES. reflexivity.
  - intros x Lx. unfold quads_sum. cbn [fold_right fuse_loss s_quadratic]. rewrite NQ by auto. lra.
  - intros L c l g. unfold total_coef. cbn. lra.
  - constructor; [|constructor]. split; [cbn; unfold fits_loss; cbn; auto|]. split; [cbn; repeat split; auto; try (repeat constructor; lra); lra|]. split; [apply no_quad_good|]. intros x Lx. split; cbn; apply Forall_forall; intros; cbn; auto.
  - intros x Lx. cbn [parts_fun]. unfold atom_doc, doc_objective. cbn. eauto.
Qed.
