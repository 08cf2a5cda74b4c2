(** C20 (group lasso), C23 (mixed lasso) and the group part of C58. *)
From Coq Require Import Reals List Lra Lia Bool ZArith Permutation.
From Verif Require Import Vec Spec M_quad M_prox M_semi SpecAtom M_shift SpecBase SpecMode M_mode SpecModed SpecWeighted SpecPart SpecGroup M_mixed M_group M_mixed_atom SpecGatom
  P_quad P_prox P_part P_mixed P_kinds P_group P_group2.
Import ListNotations.
Local Open Scope R_scope.

(** proximal() of group_lasso and group_lasso_dual, in both modes, with offset and quadratic. *)
Theorem C20_proximal : forall n a m p, gatom_wf n a m -> gprox_legal a m -> q_shape n p ->
  0 < coef (b_quadratic (m_base (g_moded a))) + coef p -> some_array (m_base (g_moded a)) p ->
  exists v, gatom_proximal a (AQuad p) = Ok v /\ prox_spec n (gmode (gfun (g_dual a) (g_groups a) (g_weights a)) m) (m_base (g_moded a)) p v.
Proof. exact gatom_proximal_correct. Qed.
Print Assumptions C20_proximal.
Theorem C20_conjugate_pair : forall n a m, gatom_wf n a m -> coef (b_quadratic (m_base (g_moded a))) = 0 ->
  exists e, gatom_conjugate a = Some (Ok e) /\ g_dual e = negb (g_dual a) /\ g_groups e = g_groups a /\ gatom_wf n e (dual_mode m) /\
    (forall u, length u = n -> is_fenchel n (moded_doc n (gfun (g_dual a) (g_groups a) (g_weights a)) (g_moded a) m) u
                                             (moded_doc n (gfun (g_dual e) (g_groups e) (g_weights e)) (g_moded e) (dual_mode m) u)) /\
    exists f, gatom_conjugate e = Some (Ok f) /\ g_dual f = g_dual a /\ g_groups f = g_groups a /\ gatom_wf n f m /\
      forall v, length v = n -> moded_doc n (gfun (g_dual f) (g_groups f) (g_weights f)) (g_moded f) m v = moded_doc n (gfun (g_dual a) (g_groups a) (g_weights a)) (g_moded a) m v.
Proof. exact gatom_conjugate_correct. Qed.
Print Assumptions C20_conjugate_pair.
(** Values, including the (exact) feasibility test. *)
Theorem C20_value : forall n a m x, gatom_wf n a m -> value_legal a -> length x = n ->
  gatom_objective a x true = Ok (moded_doc n (gfun (g_dual a) (g_groups a) (g_weights a)) (g_moded a) m x).
Proof. exact gatom_objective_correct. Qed.
Print Assumptions C20_value.
(** terms() splits the value. *)
Theorem C20_terms : forall labels given x, weights_nonneg labels given ->
  ext_sum (g_terms false labels given x) = gfun false labels given x /\ ext_maximum (g_terms true labels given x) = gfun true labels given x /\
  forall dual k, (k < length (g_ids labels))%nat -> exists g, In g labels /\
    nth k (g_terms dual labels given x) PInf = if dual then group_dual_term (group_weight given labels g) (block labels g x) else group_term (group_weight given labels g) (block labels g x).
Proof. exact g_terms_correct. Qed.
Print Assumptions C20_terms.
(** Construction and set_weight. *)
Theorem C20_construct : forall dual groups weights m o q, mode_ok m -> weights_nonneg groups weights -> (forall v, o = Some v -> length v = length groups) -> q_shape (length groups) q ->
  exists a, new_gatom dual groups weights (lag_of m) (bnd_of m) o (Some q) = Ok a /\ g_dual a = dual /\ g_groups a = groups /\ gatom_wf (length groups) a m /\
    (forall g, In g groups -> group_weight (g_weights a) groups g = group_weight weights groups g) /\ m_base (g_moded a) = new_base (length groups) o (Some q).
Proof. exact new_gatom_correct. Qed.
Print Assumptions C20_construct.
Theorem C20_set_weight : forall a g w, In g (g_groups a) -> exists b, set_weight a g w = Ok b /\ g_groups b = g_groups a /\ g_dual b = g_dual a /\ g_moded b = g_moded a /\
  forall g', group_weight (g_weights b) (g_groups b) g' = if Z.eqb g' g then w else group_weight (g_weights a) (g_groups a) g'.
Proof. exact set_weight_correct. Qed.
Print Assumptions C20_set_weight.
Theorem C20_set_weight_unknown : forall a g w, ~ In g (g_groups a) -> set_weight a g w = Err ValueError.
Proof. exact set_weight_unknown. Qed.
Print Assumptions C20_set_weight_unknown.
(** The four epigraph cones. *)
Theorem C20_cone_projection : forall n c p, gcone_wf n c -> q_shape n p -> 0 < coef (b_quadratic (gc_base c)) + coef p -> some_array (gc_base c) p ->
  exists v, gcone_proximal c (AQuad p) = Ok v /\ prox_spec n (gcone_fun (gc_class c) (gc_groups c) (gc_weights c)) (gc_base c) p v.
Proof. exact gcone_proximal_correct. Qed.
Print Assumptions C20_cone_projection.
Theorem C20_cone_conjugate : forall n c, gcone_wf n c -> coef (b_quadratic (gc_base c)) = 0 ->
  exists d, gcone_conjugate c = Some d /\ gc_class d = gcone_polar (gc_class c) /\ gc_groups d = gc_groups c /\ gcone_wf n d /\
    (forall u, length u = n -> is_fenchel n (base_doc n (gcone_fun (gc_class c) (gc_groups c) (gc_weights c)) (gc_base c)) u
                                             (base_doc n (gcone_fun (gc_class d) (gc_groups d) (gc_weights d)) (gc_base d) u)) /\
    exists e, gcone_conjugate d = Some e /\ gc_class e = gc_class c /\ gc_groups e = gc_groups c /\ gcone_wf n e /\
      forall v, length v = n -> base_doc n (gcone_fun (gc_class e) (gc_groups e) (gc_weights e)) (gc_base e) v = base_doc n (gcone_fun (gc_class c) (gc_groups c) (gc_weights c)) (gc_base c) v.
Proof. exact gcone_conjugate_correct. Qed.
Print Assumptions C20_cone_conjugate.
Theorem C20_cone_feasibility : forall k labels given n x, S (length labels) = n -> labels <> [] -> weights_regular labels given -> length x = n ->
  (gcone_fun k labels given x = Fin 0 -> gcone_constraint k labels given x = Ok (Fin 0)) /\
  (gcone_constraint k labels given x = Ok (Fin 0) -> relaxed k labels given x) /\
  (gcone_constraint k labels given x = Ok (Fin 0) \/ gcone_constraint k labels given x = Ok PInf).
Proof.
  intros k labels given n x H1 H2 H3 H4. destruct (gcone_feasibility k labels given n x H1 H2 H3 H4) as (A & B & C). split; [|auto].
  intros E. apply A. destruct (gcone_fun_cases k labels given x) as [[_ S]|[E' _]]; [auto|congruence].
Qed.
Print Assumptions C20_cone_feasibility.
(** Failures. The dual norm object calls a point feasible although its zero-weight group is not zero; a negative weight is accepted. *)
Theorem C20_dual_zero_weight_refuted : gatom_objective (gobj true 0 None (Some 1)) [0; 5] true = Ok (Fin 0) /\ gmode (gfun true [0%Z; 1%Z] (g_weights (gobj true 0 None (Some 1)))) (Bound 1) [0; 5] = PInf.
Proof. exact gdual_zero_weight. Qed.
Print Assumptions C20_dual_zero_weight_refuted.
Theorem C20_negative_weight_refuted : exists a, new_gatom false [0%Z] (fun _ => Some (-1)) (Some 1) None None (Some zero_iq) = Ok a /\ gatom_objective a [3] true = Ok (Fin (-3)).
Proof. exact g_negative_weight. Qed.
Print Assumptions C20_negative_weight_refuted.

(** == says that objects with different bounds are equal, though they are different functions. *)
Theorem C58_group_eq_refuted : gatom_eq (gobj false 1 None (Some 2)) (gobj false 1 None (Some 1)) = true /\
  gatom_objective (gobj false 1 None (Some 1)) [2; 0] true = Ok PInf /\ gatom_objective (gobj false 1 None (Some 2)) [2; 0] true = Ok (Fin 0).
Proof. exact (conj (gatom_eq_bound 2) gobj_values). Qed.
Print Assumptions C58_group_eq_refuted.

(** mixed_lasso.proximal and mixed_lasso_dual.proximal. *)
Theorem C23_proximal : forall n a p, mlatom_wf n a -> mprox_legal a -> q_shape n p ->
  0 < coef (b_quadratic (ml_base a)) + coef p -> some_array (ml_base a) p ->
  exists v, mlatom_proximal a (AQuad p) = Ok v /\ prox_spec n (mfun (ml_dual a) (ml_labels a) (ml_weights a) (ml_par a)) (ml_base a) p v.
Proof. exact mlatom_proximal_correct. Qed.
Print Assumptions C23_proximal.
Theorem C23_conjugate_pair : forall n a ids ids', mlatom_wf n a -> coef (b_quadratic (ml_base a)) = 0 -> enumerates ids (ml_labels a) -> enumerates ids' (ml_labels a) ->
  exists d, mlatom_conjugate ids a = Some d /\ ml_dual d = negb (ml_dual a) /\ ml_labels d = ml_labels a /\ mlatom_wf n d /\
    (forall u, length u = n -> is_fenchel n (base_doc n (mfun (ml_dual a) (ml_labels a) (ml_weights a) (ml_par a)) (ml_base a)) u
                                             (base_doc n (mfun (ml_dual d) (ml_labels d) (ml_weights d) (ml_par d)) (ml_base d) u)) /\
    exists e, mlatom_conjugate ids' d = Some e /\ ml_dual e = ml_dual a /\ ml_labels e = ml_labels a /\ mlatom_wf n e /\
      forall v, length v = n -> base_doc n (mfun (ml_dual e) (ml_labels e) (ml_weights e) (ml_par e)) (ml_base e) v = base_doc n (mfun (ml_dual a) (ml_labels a) (ml_weights a) (ml_par a)) (ml_base a) v.
Proof. exact mlatom_conjugate_correct. Qed.
Print Assumptions C23_conjugate_pair.
(** The value is right when there is no offset, the point is feasible and no feasibility test is asked for. *)
Theorem C23_value_partial : forall n a x r, mlatom_wf n a -> ml_dual a = false -> b_offset (ml_base a) = None -> length x = n ->
  mixed_pen (ml_labels a) (group_weight (ml_weights a) (ml_labels a)) x = Fin r ->
  mlatom_objective a x false = Ok (base_doc n (mfun false (ml_labels a) (ml_weights a) (ml_par a)) (ml_base a) x).
Proof. exact mlatom_value. Qed.
Print Assumptions C23_value_partial.
(** With the test, 0 is declared infeasible for x >= 0. *)
Theorem C23_feasibility_refuted : mlatom_objective (mk_mlatom false [(-4)%Z] [] (fun _ => None) 1 (mk_base 1 None zero_iq)) [0] true = Ok PInf /\
  base_doc 1 (mfun false [(-4)%Z] (fun _ => None) 1) (mk_base 1 None zero_iq) [0] = Fin 0.
Proof. exact mixed_feasible_rejected. Qed.
Print Assumptions C23_feasibility_refuted.
(** An offset is subtracted twice. *)
Theorem C23_offset_refuted : mlatom_objective (l1_obj (Some [1]) 1) [1] false = Ok (Fin 1) /\
  base_doc 1 (mfun false [(-2)%Z] (fun _ => None) 1) (ml_base (l1_obj (Some [1]) 1)) [1] = Fin 0.
Proof. exact mixed_offset_twice. Qed.
Print Assumptions C23_offset_refuted.
(** The dual's value is 1 at a feasible point and 0 at an infeasible one. *)
Theorem C23_dual_value_refuted : mlatom_objective l1_dual_obj [0] true = Ok (Fin 1) /\ mlatom_objective l1_dual_obj [2] true = Ok (Fin 0).
Proof. exact mixed_dual_value. Qed.
Print Assumptions C23_dual_value_refuted.
(** lagrange = 0: any zero entry in the l1 block makes the result a nan. *)
Theorem C23_zero_lagrange_refuted : forall labels ids given x L, length x = length labels -> 0 < L -> In 0 (block labels (-2) x) ->
  mixed_lagrange_prox (ml_kinds labels ids) (ml_warr labels ids given) x 0 L = Err NaNResult.
Proof. exact mixed_zero_nan. Qed.
Print Assumptions C23_zero_lagrange_refuted.
(** The bound-form routine leaves -5 where it is, outside the ball of radius 1. *)
Theorem C23_bound_routine_refuted :
  mixed_bound_prox (ml_kinds [(-2)%Z] []) (ml_warr [(-2)%Z] [] (fun _ => None)) [-5] 1 = Ok [-5] /\ ~ gball (mixed_pen [(-2)%Z] (fun _ => 1)) 1 [-5].
Proof. exact (conj mixed_bound_signed mixed_bound_outside). Qed.
Print Assumptions C23_bound_routine_refuted.

Lemma weight20 : / 10 ^ 20 <= 1.
Proof. apply Rle_trans with (/ 1); [apply Rinv_le_contravar; [lra|apply pow_R1_Rle; lra]|lra]. Qed.
Example C20_case :
  let a := mk_gatom false [3%Z; 0%Z; 3%Z] (fun g => if Z.eqb g 3 then Some 2 else Some 0) (mk_moded None (Some 1) (mk_base 3 (Some [1; 0; 2]) (mk_iq 0 FNone (FVec [1; 1; 0]) 0))) in
  gatom_wf 3 a (Bound 1) /\ gprox_legal a (Bound 1) /\ value_legal a /\ coef (b_quadratic (m_base (g_moded a))) = 0.
Proof.
  pose proof weight20 as W. cbv zeta. split; [|split; [|split; [exact I|reflexivity]]].
  - split; [reflexivity|]. split; [|intros g _; unfold group_weight; cbn [g_weights]; destruct (Z.eqb g 3); lra]. split; [reflexivity|]. split; [reflexivity|]. split; [simpl; lra|]. split; [reflexivity|]. split; [|cbn; repeat split; auto].
    intros o E. injection E as <-. split; auto. intros C. injection C. lra.
  - split; [discriminate|]. split; [|left; lra]. intros g _. unfold group_weight. cbn [g_weights]. destruct (Z.eqb g 3); [right; lra|left; lra].
Qed.
Example C20_cone_case : gcone_wf 4 (mk_gcone GDualEpi [3%Z; 0%Z; 3%Z] (fun g => if Z.eqb g 3 then Some 2 else Some 1) (mk_base 4 None (mk_iq 0 FNone (FVec [1; 1; 0; 2]) 0))).
Proof.
  pose proof weight20 as W. split; [reflexivity|]. split; [discriminate|]. split; [intros g _; unfold group_weight; cbn [gc_weights]; destruct (Z.eqb g 3); lra|]. split; [reflexivity|]. split; [discriminate|]. cbn; repeat split; auto.
Qed.
Example C23_case :
  let a := mk_mlatom false [7%Z; (-2)%Z; (-3)%Z; 7%Z; (-1)%Z; (-4)%Z; 9%Z] [9%Z; 7%Z] (fun g => None) 2 (mk_base 7 (Some [1; 0; 2; 0; 0; 0; 0]) (mk_iq 0 FNone FNone 0)) in
  mlatom_wf 7 a /\ mprox_legal a /\ coef (b_quadratic (ml_base a)) = 0.
Proof.
  cbv zeta. split; [|split; [left; simpl; lra|reflexivity]]. split; [reflexivity|]. split; [apply perm_swap|]. split; [simpl; lra|]. split; [split; [reflexivity|]; split; [|cbn; repeat split; auto]|].
  - intros o E. injection E as <-. split; auto. intros C. injection C. lra.
  - intros g _. cbn [ml_weights group_weight]. apply sqrt_pos.
Qed.
