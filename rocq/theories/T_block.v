(** C54: block norms (l1_l2, linf_l2, l1_l1, linf_linf, block_sum, block_max). *)
From Coq Require Import Reals List Lra Lia Bool.
From Verif Require Import Vec Spec SpecAtom M_quad M_prox M_semi M_shift M_mode SpecBase SpecMode SpecModed SpecWeighted SpecPart SpecBlock M_block SpecBatom
  P_quad P_prox P_semi P_shift P_gauge P_block P_block2 P_block3.
Import ListNotations.
Local Open Scope R_scope.

(** proximal() with offset and quadratic. y is the point at which the class's own prox method is evaluated. The result is right
    for l1_l1 and linf_linf, for linf_l2 with a positive bound, and for the others when y has no zero row ([row_legal]);
    a zero row makes it nan. *)
Theorem C54_proximal_partial : forall n a m p, batom_wf n a m -> q_shape n p -> 0 < coef (b_quadratic (m_base (b_moded a))) + coef p -> some_array (m_base (b_moded a)) p ->
  exists y, length y = n /\ total_centre n (m_base (b_moded a)) p y /\
    (row_legal (bk a) m (b_r a) (b_c a) y -> exists v, batom_proximal a (AQuad p) = Ok v /\ prox_spec n (gmode (bfun (bk a) (b_r a) (b_c a)) m) (m_base (b_moded a)) p v) /\
    (zero_row (b_r a) (b_c a) y -> (0 < b_c a)%nat -> (bk a = L1L2 \/ bk a = LinfL2 /\ (exists lam, m = Lagrange lam)) \/ bk a = LinfL2 /\ m = Bound 0 ->
      batom_proximal a (AQuad p) = Err NaNResult).
Proof. exact batom_proximal_correct. Qed.
Print Assumptions C54_proximal_partial.
(** The same for the methods lagrange_prox and bound_prox. *)
Theorem C54_prox : forall k r c x L m, length x = (r * c)%nat -> 0 < L -> mode_ok m -> row_legal k m r c x ->
  match m with
  | Lagrange lam => exists e, bl_lagrange_prox k r c x L lam = Ok e /\ is_unique_argmin (r * c) (prox_objective L x (gmode (bfun k r c) (Lagrange lam))) e
  | Bound b => exists e, bl_bound_prox k r c x b = Ok e /\ is_proj (r * c) (gball (bfun k r c) b) x e
  end.
Proof. exact bl_prox_correct. Qed.
Print Assumptions C54_prox.
(** With a zero row, l1_l2.lagrange_prox divides 0 by 0, where the minimizer has a zero row. *)
Theorem C54_zero_row_refuted : forall r c x L lam, (0 < c)%nat -> length x = (r * c)%nat -> zero_row r c x -> bl_lagrange_prox L1L2 r c x L lam = Err NaNResult.
Proof. intros r c x L lam Hc Hx Hz. exact (scale_rows_zero _ r c x Hc Hx Hz). Qed.
Print Assumptions C54_zero_row_refuted.
(** block_sum and block_max: two modes raise NameError, one ValueError, and the projection on the ball of block_sum is always 0. *)
Theorem C54_generic_refuted : forall n a m p s, batom_wf n a m -> q_shape n p -> 0 < coef (b_quadratic (m_base (b_moded a))) + coef p -> some_array (m_base (b_moded a)) p ->
  (bk a = BSum s -> (exists lam, m = Lagrange lam) -> batom_proximal a (AQuad p) = Err NameError) /\
  (bk a = BMax s -> (exists b, m = Bound b) -> batom_proximal a (AQuad p) = Err NameError) /\
  (bk a = BMax s -> (exists lam, m = Lagrange lam) -> batom_proximal a (AQuad p) = Err ValueError) /\
  (bk a = BSum s -> (exists b, m = Bound b) -> b_offset (m_base (b_moded a)) = None -> batom_proximal a (AQuad p) = Ok (zeros n)).
Proof. exact block_generic_prox. Qed.
Print Assumptions C54_generic_refuted.
(** Values in Lagrange mode, for row norms that are finite everywhere. *)
Theorem C54_value : forall n a lam x chk, batom_wf n a (Lagrange lam) -> finite_block (bk a) -> has_max (bk a) (b_r a) (b_c a) -> length x = n ->
  batom_objective a x chk = Ok (moded_doc n (bfun (bk a) (b_r a) (b_c a)) (b_moded a) (Lagrange lam) x).
Proof. exact batom_value. Qed.
Print Assumptions C54_value.
(** Feasibility in bound mode, with the relative tolerance 1e-5. *)
Theorem C54_feasibility : forall n a b x, batom_wf n a (Bound b) -> finite_block (bk a) -> has_max (bk a) (b_r a) (b_c a) -> (forall s, bk a <> BSum s) -> length x = n ->
  let q := quad_fun (coef (b_quadratic (m_base (b_moded a)))) (fbcast n (center (b_quadratic (m_base (b_moded a))))) (fbcast n (linear_term (b_quadratic (m_base (b_moded a))))) (constant_term (b_quadratic (m_base (b_moded a)))) x in
  let y := vsub x (base_off n (m_base (b_moded a))) in
  (gball (bfun (bk a) (b_r a) (b_c a)) b y -> batom_objective a x true = Ok (Fin q)) /\
  (batom_objective a x true = Ok (Fin q) \/ batom_objective a x true = Ok PInf) /\
  (forall v, batom_objective a x true = Ok (Fin v) -> gball (bfun (bk a) (b_r a) (b_c a)) (b * (1 + / 10 ^ 5)) y) /\
  batom_objective a x false = Ok (Fin q).
Proof. exact batom_feasible. Qed.
Print Assumptions C54_feasibility.
(** block_sum has no feasibility test at all; row norms with a constraint lose it. *)
Theorem C54_block_constraint_refuted : forall n a b s x, batom_wf n a (Bound b) -> bk a = BSum s -> (0 < b_r a)%nat -> length x = n -> batom_objective a x true = Err ValueError.
Proof. exact block_sum_constraint. Qed.
Print Assumptions C54_block_constraint_refuted.
Theorem C54_constrained_rows_refuted : exists a, new_batom (BSum CConPosPart) 1 1 (Some 1) None None None = Ok a /\
  batom_objective a [-1] true = Ok (Fin 0) /\ gmode (bfun (BSum CConPosPart) 1 1) (Lagrange 1) [-1] = PInf.
Proof. exact block_constraint_lost. Qed.
Print Assumptions C54_constrained_rows_refuted.
(** The sum of h over the rows and the maximum of the dual of h are dual to each other: conjugates are exact, for every row norm, and
    conjugating twice gives the function back. *)
Theorem C54_conjugate : forall n a m, batom_wf n a m -> coef (b_quadratic (m_base (b_moded a))) = 0 ->
  exists d, batom_conjugate a = Some (Ok d) /\ bk d = bpair (bk a) /\ b_r d = b_r a /\ b_c d = b_c a /\ batom_wf n d (dual_mode m) /\
    (forall u, length u = n -> is_fenchel n (moded_doc n (bfun (bk a) (b_r a) (b_c a)) (b_moded a) m) u (moded_doc n (bfun (bk d) (b_r d) (b_c d)) (b_moded d) (dual_mode m) u)) /\
    exists e, batom_conjugate d = Some (Ok e) /\ bk e = bk a /\ b_r e = b_r a /\ b_c e = b_c a /\ batom_wf n e m /\
      forall v, length v = n -> moded_doc n (bfun (bk e) (b_r e) (b_c e)) (b_moded e) m v = moded_doc n (bfun (bk a) (b_r a) (b_c a)) (b_moded a) m v.
Proof. exact batom_conjugate_correct. Qed.
Print Assumptions C54_conjugate.
(** ... but not after an assignment to lagrange: the conjugate is still the old one, which is then wrong. *)
Theorem C54_stale : forall a v b, batom_set_lagrange a v = Ok b -> m_lagrange (b_moded b) = Some v /\ batom_conjugate b = batom_conjugate a.
Proof. exact batom_stale. Qed.
Print Assumptions C54_stale.
Theorem C54_stale_refuted : exists b d, batom_set_lagrange (plain_l1l2 1) 2 = Ok b /\ batom_conjugate b = Some (Ok d) /\
  ~ is_fenchel 1 (moded_doc 1 (bfun L1L2 1 1) (b_moded b) (Lagrange 2)) [2] (moded_doc 1 (bfun (bk d) (b_r d) (b_c d)) (b_moded d) (Bound 1) [2]) /\ m_bound (b_moded d) = Some 1.
Proof. exact batom_stale_wrong. Qed.
Print Assumptions C54_stale_refuted.
Theorem C54_construct : forall k r c m o q, mode_ok m -> (forall v, o = Some v -> length v = (r * c)%nat) -> q_shape (r * c) q ->
  exists a, new_batom k r c (lag_of m) (bnd_of m) o (Some q) = Ok a /\ bk a = k /\ b_r a = r /\ b_c a = c /\ batom_wf (r * c) a m /\ m_base (b_moded a) = new_base (r * c) o (Some q).
Proof. exact new_batom_correct. Qed.
Print Assumptions C54_construct.
(** copy() is faithful for the four concrete classes and fails for block_sum and block_max. *)
Theorem C54_copy : forall n a m, batom_wf n a m -> (concrete (bk a) -> batom_copy a = Ok a) /\ (~ concrete (bk a) -> batom_copy a = Err TypeError).
Proof. exact batom_copy_correct. Qed.
Print Assumptions C54_copy.
(** The methods set_lagrange and set_bound: one raises, the other changes nothing. *)
Theorem C54_setters_refuted : forall a v, batom_set_lagrange_method a v = Err TypeError /\ batom_set_bound_method a v = Ok a.
Proof. intros. split; reflexivity. Qed.
Print Assumptions C54_setters_refuted.

(** A matrix with a zero row, and one without *)
Example C54_zero_row : zero_row 2 2 [0; 0; 3; 4] /\ ~ zero_row 2 2 [1; 0; 3; 4].
Proof. split; [left; reflexivity|]. intros [H|[H|[]]]; unfold zeros in H; simpl in H; injection H; lra. Qed.
Example C54_witness : batom_wf 1 (plain_l1l2 1) (Lagrange 1) /\ row_legal L1L2 (Lagrange 1) 2 2 [1; 0; 3; 4] /\ has_max L1L2 2 2 /\ finite_block L1L2.
Proof. split; [apply plain_wf; lra|]. split; [|split; exact I]. apply C54_zero_row. Qed.
(** The 2-by-2 matrix with rows (3,4) and (0,2): l1_l2 = 7, linf_l2 = 5 *)
Example C54_values : bfun L1L2 2 2 [3; 4; 0; 2] = Fin 7 /\ bfun LinfL2 2 2 [3; 4; 0; 2] = Fin 5.
Proof.
  assert (N1 : norm [3; 4] = 5) by (unfold norm, sqn, dot; cbn; replace (3 * 3 + (4 * 4 + 0)) with (5 * 5) by lra; apply sqrt_square; lra).
  assert (N2 : norm [0; 2] = 2) by (unfold norm, sqn, dot; cbn; replace (0 * 0 + (2 * 2 + 0)) with (2 * 2) by lra; apply sqrt_square; lra).
  rewrite l1l2_value, linfl2_value. unfold row_norms. cbn [rows firstn skipn map]. rewrite N1, N2. cbn [vsum fold_right rmaxl]. rewrite (Rmax_left 2 0), Rmax_left by lra.
  split; f_equal; lra.
Qed.
Print Assumptions C54_values.
