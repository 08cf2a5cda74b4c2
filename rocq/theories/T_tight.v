(** More about C21, C22 and C50: values and copies that the first theorems left open. *)
From Coq Require Import Reals List Lra Lia Psatz ZArith Bool.
From Verif Require Import M_affine Vec Spec SpecLoss M_quad M_prox M_semi SpecAtom M_shift SpecBase SpecMode M_mode SpecModed SpecWeighted SpecPart SpecGroup M_mixed M_weighted M_group M_mixed_atom SpecGatom M_linear SpecLinear SpecSgl M_sgl SpecSglObj
  P_quad P_prox P_feas P_semi P_conj P_shift P_gauge P_slope P_part P_weighted P_kinds P_group P_group2 P_linear P_search P_sgl P_sgl2 P_sgl3 P_sgl4 P_sgl5 P_sgl6 P_sgl7 P_block3 T_sgl.
Import ListNotations.
Local Open Scope R_scope.

(** ** C50 *)
(** nonsmooth_objective: the quadratic, and infinite exactly where the class's own test (C50_rows_test, C50_complement_test_refuted) rejects x - offset *)
Theorem C50_objective : forall n k B g x, base_wf n g -> length x = n ->
  let y := vsub x (base_off n g) in
  lcon_objective (mk_lcon k B g) x false = Ok (base_doc n (fun _ => Fin 0) g x) /\
  (lcon_constraint k B y = Fin 0 -> lcon_objective (mk_lcon k B g) x true = Ok (base_doc n (fun _ => Fin 0) g x)) /\
  (lcon_constraint k B y = PInf -> lcon_objective (mk_lcon k B g) x true = Ok PInf).
Proof.
  intros n k B g x W Lx y. unfold lcon_objective. cbn [l_base l_class l_basis]. split; [|split; intros E].
  - apply shifted_objective_correct; auto.
  - rewrite (shifted_objective_correct n (lcon_constraint k B)) by auto. unfold base_doc. fold y. rewrite E. reflexivity.
  - rewrite (shifted_objective_correct n (lcon_constraint k B)) by auto. unfold base_doc. fold y. rewrite E. reflexivity.
Qed.
Print Assumptions C50_objective.
(** A point whose difference with the offset lies in the span gets the value of the quadratic from the projection class. *)
Theorem C50_member_value : forall n B g x, orthonormal n B -> base_wf n g -> length x = n -> in_rows n B (vsub x (base_off n g)) ->
  lcon_objective (mk_lcon LProjection B g) x true = Ok (base_doc n (fun _ => Fin 0) g x).
Proof.
  intros n B g x O W Lx I. destruct (C50_objective n LProjection B g x W Lx) as (_ & H & _). apply H. pose proof (base_off_length n g W) as Lo.
  assert (Ly : length (vsub x (base_off n g)) = n) by vlen. apply (proj2 (rows_test n B _ O Ly LProjection)). exists (vsub x (base_off n g)). split; auto.
  assert (E : norm (vsub (vsub x (base_off n g)) (vsub x (base_off n g))) = 0) by (rewrite vsub_self; apply norm_zeros).
  rewrite E. apply Rmult_lt_0_compat; [apply Rinv_0_lt_compat, pow_lt; lra|]. apply Rlt_le_trans with 1; [lra|apply Rmax_r].
Qed.
Print Assumptions C50_member_value.
Theorem C50_copy : forall n c, base_wf n (l_base c) -> lcon_copy c = c.
Proof.
  intros n [k B g] W. unfold lcon_copy, new_lcon. cbn [l_class l_basis l_base] in *. assert (En : b_shape g = n) by (destruct W; auto). rewrite En, (new_base_same n) by auto. reflexivity.
Qed.
Print Assumptions C50_copy.

(** ** C21: a copy has the same class, groups, feature weights, group weights, mode, offset and quadratic. *)
Theorem C21_copy : forall n a m, sgl_wf n a m -> exists c, sgl_copy a = Ok c /\ s_dual c = s_dual a /\ s_groups c = s_groups a /\ s_lasso c = s_lasso a /\
  (forall g, In g (s_groups a) -> group_weight (s_weights c) (s_groups c) g = group_weight (s_weights a) (s_groups a) g) /\ s_moded c = s_moded a.
Proof.
  intros n [d gs lw w [ml mb g]] m (L1 & L2 & Hl & Hw & (E1 & E2 & Hm & Hb)). cbn [s_groups s_lasso s_weights s_moded s_dual m_lagrange m_bound m_base] in *. subst ml mb. subst n.
  unfold sgl_copy. cbn [s_groups s_lasso s_weights s_moded s_dual m_lagrange m_bound m_base].
  destruct (new_sgl_correct d gs lw w m (b_offset g) (b_quadratic g) Hm Hl (or_introl L2) Hw) as (c & Ec & Ed & Eg & Wc & El & _ & Ew & Eb).
  - intros v Ev. destruct Hb as (_ & Ho & _). destruct (Ho v Ev). auto.
  - destruct Hb as (_ & _ & Hq). auto.
  - exists c. split; auto. split; auto. split; auto. split; auto. split; [intros h Hh; rewrite Eg; auto|].
    destruct Wc as (_ & _ & _ & _ & (F1 & F2 & _)). rewrite (new_base_same _ _ Hb) in Eb. destruct (s_moded c) as [cl cb cg]. cbn [m_lagrange m_bound m_base] in *. congruence.
Qed.
Print Assumptions C21_copy.

(** ** C22: seminorm() of a dual object that has a bound is lagrange times the dual norm, with the tolerances of C22_gauge_partial. *)
Theorem C22_seminorm_partial : forall labels lw given bound n x lam D r fuel, length labels = n -> length lw = n -> Forall weight_legal lw -> weights_nonneg labels given -> 0 <= bound ->
  length x = n -> (34 < fuel)%nat -> is_dual_norm n (sparse_group labels lw (group_weight given labels)) x D -> 0 < r -> (forall g, In g labels -> r <= group_weight given labels g) ->
  exists e, sd_seminorm labels lw given (Some bound) x lam fuel = Ok (match e with Fin m => Fin (m * lam) | PInf => PInf end) /\
    match e with
    | PInf => 2 ^ 50 < D
    | Fin m => (m = 0 /\ D <= (1 / 2) ^ 50 + / 10 ^ 7 * Rmax (norm x) ((1 / 2) ^ 50) / r) \/
               (0 < m /\ (1 - / 10 ^ 10) * m < D /\ D <= (1 + 2 * / 10 ^ 10) * m + / 10 ^ 7 * Rmax (norm x) ((1 + 2 * / 10 ^ 10) * m) / r)
    end.
Proof.
  intros labels lw given bound n x lam D r fuel L1 L2 Hl Hw Hb Lx Hf HD Hr Hg. unfold sd_seminorm. rewrite base_ok by (auto; congruence). cbn [rbind].
  set (b := mk_sgl _ _ _ _ _). destruct (C22_gauge_partial b n x D r fuel) as (e & E & H); auto.
  - cbn. intros g Hgi. rewrite group_weight_filled by auto. apply Hw; auto.
  - unfold spen. cbn [b s_groups s_lasso s_weights]. rewrite spen_filled. auto.
  - cbn. intros g Hgi. rewrite group_weight_filled by auto. auto.
  - exists e. rewrite E. split; [destruct e; reflexivity|exact H].
Qed.
Print Assumptions C22_seminorm_partial.
(** The hypotheses are met: a constraint with an offset and a quadratic. *)
Example C50_objective_witness : base_wf 2 (new_base 2 (Some [1; 0]) (Some (mk_iq 3 (FVec [1; 1]) (FScal 0) 0))).
Proof. apply new_base_wf; [intros v E; injection E as <-; reflexivity|split; [reflexivity|exact I]]. Qed.
Print Assumptions C50_objective_witness.
