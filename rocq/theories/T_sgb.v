(** C21 and C22 for the matrix version: sparse_group_block and its dual. *)
From Coq Require Import Reals List Lra Lia Bool.
From Verif Require Import Vec Spec SpecAtom M_quad M_prox M_semi M_shift M_mode SpecBase SpecMode SpecModed SpecWeighted SpecPart SpecLinear SpecSgl SpecBlock M_sgl M_block M_sgb SpecSgb
  P_quad P_prox P_shift P_gauge P_block P_block2 P_sgb P_sgb2 P_sgb3.
Import ListNotations.
Local Open Scope R_scope.

(** proximal() of sparse_group_block in Lagrange mode, with offset and quadratic *)
Theorem C21_block_proximal : forall n a lam p, sgb_wf n a (Lagrange lam) -> sb_dual a = false -> q_shape n p ->
  0 < coef (b_quadratic (m_base (sb_moded a))) + coef p -> some_array (m_base (sb_moded a)) p ->
  exists v, sgb_proximal a (AQuad p) = Ok v /\ prox_spec n (gmode (bpen a) (Lagrange lam)) (m_base (sb_moded a)) p v.
Proof. exact sgb_proximal_lagrange. Qed.
Print Assumptions C21_block_proximal.
(** proximal() of sparse_group_block_dual in bound mode projects on the dual ball *)
Theorem C21_block_dual_proximal : forall n a b p h, sgb_wf n a (Bound b) -> sb_dual a = true -> q_shape n p ->
  0 < coef (b_quadratic (m_base (sb_moded a))) + coef p -> some_array (m_base (sb_moded a)) p -> indicates n (dual_ball n (bpen a) b) h ->
  exists v, sgb_proximal a (AQuad p) = Ok v /\ prox_spec n h (m_base (sb_moded a)) p v.
Proof. exact sgb_proximal_dual. Qed.
Print Assumptions C21_block_dual_proximal.
Theorem C21_block_missing_modes : forall n a m p, sgb_wf n a m -> sb_dual a = (match m with Lagrange _ => true | Bound _ => false end) -> q_shape n p ->
  0 < coef (b_quadratic (m_base (sb_moded a))) + coef p -> some_array (m_base (sb_moded a)) p ->
  sgb_proximal a (AQuad p) = Err NotImplementedError.
Proof. exact sgb_proximal_missing. Qed.
Print Assumptions C21_block_missing_modes.
Theorem C21_block_value : forall n a lam x fuel chk, sgb_wf n a (Lagrange lam) -> sb_dual a = false -> length x = n ->
  sgb_objective a fuel x chk = Ok (moded_doc n (bpen a) (sb_moded a) (Lagrange lam) x).
Proof. exact sgb_value. Qed.
Print Assumptions C21_block_value.
(** In bound mode the feasibility test always raises. *)
Theorem C21_block_bound_refuted : forall n a b x fuel, sgb_wf n a (Bound b) -> sb_dual a = false -> length x = n -> sgb_objective a fuel x true = Err TypeError.
Proof. exact sgb_bound_value. Qed.
Print Assumptions C21_block_bound_refuted.
(** "the args that are summed in computing the seminorm": only when both weights agree *)
Theorem C21_block_terms_refuted : forall a x, length x = (sb_r a * sb_c a)%nat ->
  (sb_l1 a = sb_l2 a -> Fin (vsum (sgb_terms a x)) = bpen a x) /\
  (sb_l1 a <> sb_l2 a -> (exists i, nth i x 0 <> 0) -> Fin (vsum (sgb_terms a x)) <> bpen a x).
Proof. exact sgb_terms_correct. Qed.
Print Assumptions C21_block_terms_refuted.
Theorem C21_block_conjugate : forall n a lam h, sgb_wf n a (Lagrange lam) -> sb_dual a = false -> coef (b_quadratic (m_base (sb_moded a))) = 0 ->
  indicates n (dual_ball n (bpen a) lam) h ->
  exists e, sgb_conjugate a = Some (Ok e) /\ sb_dual e = true /\ sgb_wf n e (Bound lam) /\ bpen e = bpen a /\
    forall u, length u = n -> is_fenchel n (moded_doc n (bpen a) (sb_moded a) (Lagrange lam)) u (base_doc n h (m_base (sb_moded e)) u).
Proof. exact sgb_conjugate_lagrange. Qed.
Print Assumptions C21_block_conjugate.
Theorem C21_block_dual_conjugate : forall n a b h, sgb_wf n a (Bound b) -> sb_dual a = true -> coef (b_quadratic (m_base (sb_moded a))) = 0 ->
  indicates n (dual_ball n (bpen a) b) h ->
  exists e, sgb_conjugate a = Some (Ok e) /\ sb_dual e = false /\ sgb_wf n e (Lagrange b) /\ bpen e = bpen a /\
    forall u, length u = n -> is_fenchel n (base_doc n h (m_base (sb_moded a))) u (moded_doc n (bpen e) (sb_moded e) (Lagrange b) u).
Proof. exact sgb_conjugate_dual. Qed.
Print Assumptions C21_block_dual_conjugate.
(** Negative weights are accepted silently; nonnegative ones give a well-formed object. *)
Theorem C21_block_construct : forall dual r c l1 l2 m o q, mode_ok m -> (forall v, o = Some v -> length v = (r * c)%nat) -> q_shape (r * c) q ->
  exists a, new_sgb dual r c l1 l2 (lag_of m) (bnd_of m) o (Some q) = Ok a /\ sb_dual a = dual /\ bpen a = sparse_block r c l1 l2 /\
    m_base (sb_moded a) = new_base (r * c) o (Some q) /\ (0 <= l1 -> 0 <= l2 -> sgb_wf (r * c) a m).
Proof. exact new_sgb_correct. Qed.
Print Assumptions C21_block_construct.
Theorem C21_block_copy : forall n a m, sgb_wf n a m -> sgb_copy a = Ok a.
Proof. exact sgb_copy_correct. Qed.
Print Assumptions C21_block_copy.

(** _gauge_function_dual of sparse_group_block.py *)
Theorem C22_block_terminates : forall r c l1 l2 x fuel, (20 < fuel)%nat -> exists e, sgb_gauge r c l1 l2 x fuel = Ok e.
Proof. exact block_gauge_terminates. Qed.
Print Assumptions C22_block_terminates.
(** Right up to the relative tolerance 1e-6 and the absolute slack 1e-10 max(||x||,1)/(w_1+w_2) *)
Theorem C22_block_partial : forall r c l1 l2, 0 <= l1 -> 0 <= l2 -> forall x D fuel, length x = (r * c)%nat -> (20 < fuel)%nat -> is_dual_norm (r * c) (sparse_block r c l1 l2) x D -> 0 < l1 + l2 ->
  exists e, sgb_gauge r c l1 l2 x fuel = Ok e /\
    match e with
    | PInf => 2 ^ 50 < D
    | Fin m => (m = 0 /\ D <= (1 / 2) ^ 50 + / 10 ^ 10 * Rmax (norm x) 1 / (l1 + l2)) \/
               (0 < m /\ (1 - / 10 ^ 6) * m < D /\ D <= (1 + 2 * / 10 ^ 6) * m + / 10 ^ 10 * Rmax (norm x) 1 / (l1 + l2))
    end.
Proof. exact block_gauge_accurate. Qed.
Print Assumptions C22_block_partial.
(** The slack is absolute: a dual norm of 5 is reported as 0. *)
Theorem C22_block_refuted : is_dual_norm 1 (sparse_block 1 1 (/ 10 ^ 11) (/ 10 ^ 11)) [/ 10 ^ 10] 5 /\
  forall fuel, (20 < fuel)%nat -> sgb_gauge 1 1 (/ 10 ^ 11) (/ 10 ^ 11) [/ 10 ^ 10] fuel = Ok (Fin 0).
Proof. exact block_gauge_wrong. Qed.
Print Assumptions C22_block_refuted.
(** The dual object's feasibility test accepts its ball and not much more. *)
Theorem C22_block_feasible : forall a b x D fuel, sb_dual a = true -> 0 <= sb_l1 a -> 0 <= sb_l2 a -> 0 < sb_l1 a + sb_l2 a -> 0 <= b -> (20 < fuel)%nat -> length x = (sb_r a * sb_c a)%nat ->
  is_dual_norm (sb_r a * sb_c a) (bpen a) x D ->
  (D <= b -> D <= 2 ^ 50 -> sgb_constraint a fuel x b = Ok (Fin 0)) /\
  (sgb_constraint a fuel x b = Ok (Fin 0) -> D <= (1 + 2 * / 10 ^ 5) * b + (1 / 2) ^ 50 + / 10 ^ 10 * Rmax (norm x) 1 / (sb_l1 a + sb_l2 a)) /\
  (sgb_constraint a fuel x b = Ok (Fin 0) \/ sgb_constraint a fuel x b = Ok PInf).
Proof. exact sgb_dual_feasible. Qed.
Print Assumptions C22_block_feasible.
Theorem C22_block_value : forall n a lam x fuel chk, sgb_wf n a (Lagrange lam) -> sb_dual a = true -> length x = n -> (20 < fuel)%nat ->
  exists g, (forall y, sgb_gauge (sb_r a) (sb_c a) (sb_l1 a) (sb_l2 a) y fuel = Ok (g y)) /\
    sgb_objective a fuel x chk = Ok (base_doc n (fun y => ext_scale lam (g y)) (m_base (sb_moded a)) x).
Proof. exact sgb_dual_value. Qed.
Print Assumptions C22_block_value.
(** The dual norm is the largest of the rows' dual norms, which the dual's terms() approximate. *)
Theorem C22_block_rows : forall r c l1 l2 x D (d : nat -> R), 0 <= l1 -> 0 <= l2 -> (0 < r)%nat -> length x = (r * c)%nat ->
  (forall i, (i < r)%nat -> is_dual_norm c (one_group (repeat l1 c) l2) (nth i (rows r c x) []) (d i)) ->
  (is_dual_norm (r * c) (sparse_block r c l1 l2) x D <-> (exists i, (i < r)%nat /\ D = d i) /\ forall i, (i < r)%nat -> d i <= D).
Proof. exact block_norm_max. Qed.
Print Assumptions C22_block_rows.
Theorem C22_block_terms_partial : forall a x fuel, 0 <= sb_l1 a -> 0 <= sb_l2 a -> length x = (sb_r a * sb_c a)%nat -> (20 < fuel)%nat ->
  length (sgb_dual_terms a fuel x) = sb_r a /\
  forall i D, (i < sb_r a)%nat -> is_dual_norm (sb_c a) (one_group (repeat (sb_l1 a) (sb_c a)) (sb_l2 a + / 10 ^ 5)) (nth i (rows (sb_r a) (sb_c a) x) []) D ->
    exists e, nth i (sgb_dual_terms a fuel x) (Err OutOfFuel) = Ok e /\
      match e with PInf => 2 ^ 50 < D | Fin m => m = 0 /\ D <= (1 / 2) ^ 50 \/ Rabs (m - D) <= / 10 ^ 6 * (1 + / 10 ^ 6) * D end.
Proof. exact sgb_dual_terms_correct. Qed.
Print Assumptions C22_block_terms_partial.

(** A 1-by-2 matrix with both weights 1: soft-thresholding (4,5) by 1 gives (3,4), and shrinking its norm 5 by 1 gives (12/5, 16/5). *)
Example C21_block_step : sgb_prox 1 2 [4; 5] 1 1 = [12 / 5; 16 / 5].
Proof.
  unfold sgb_prox. cbn [rows firstn skipn map concat]. unfold sgb_row. cbn [map]. unfold sgn. rewrite !Rabs_right by lra. destruct (Rlt_dec 0 4); [|lra]. destruct (Rlt_dec 0 5); [|lra].
  rewrite (Rmax_left (4 - 1) 0), (Rmax_left (5 - 1) 0) by lra. assert (N : norm [1 * (4 - 1); 1 * (5 - 1)] = 5).
  { unfold norm, sqn, dot, vmul, vsum. cbn [vzip fold_right]. replace (_ + _) with (5 * 5) by lra. apply sqrt_square. lra. }
  rewrite N. destruct (Req_EM_T 5 0); [lra|]. rewrite Rmax_left by lra. unfold vscal. cbn [map app]. f_equal; [field|f_equal; field].
Qed.
Example C21_block_witness : exists a, new_sgb false 1 2 1 1 (Some 1) None None (Some (mk_iq 0 (FScal 0) (FScal 0) 0)) = Ok a /\ sgb_wf 2 a (Lagrange 1) /\ sb_dual a = false.
Proof.
  destruct (C21_block_construct false 1 2 1 1 (Lagrange 1) None (mk_iq 0 (FScal 0) (FScal 0) 0)) as (a & E & D & _ & _ & W); [simpl; lra|discriminate|repeat split; exact I|].
  exists a. split; [exact E|]. split; auto. apply W; lra.
Qed.
Example C22_block_witness : exists D, is_dual_norm 2 (sparse_block 1 2 1 1) [4; 5] D.
Proof. apply (block_norm_exists 1 2 1 1); auto; lra. Qed.
Print Assumptions C22_block_witness.
