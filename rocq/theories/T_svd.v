(** C53: nuclear and operator norms and their epigraphs, given exact singular value decompositions. *)
From Coq Require Import Reals List Lra Lia Bool.
From Verif Require Import M_affine Vec Spec SpecAtom M_quad M_prox M_semi M_shift M_mode SpecBase SpecMode SpecModed SpecSvd M_svd SpecSvd2
  P_quad P_prox P_semi P_shift P_gauge P_svd2 P_svd3 P_svd4 P_svd5 P_svd6.
Import ListNotations.
Local Open Scope R_scope.

(** Every matrix has a singular value decomposition as numpy.linalg.svd promises it, so [is_svd] below is never vacuous. *)
Theorem C53_svd_exists : forall r c X, length X = (r * c)%nat -> exists U D V, is_svd r c X U D V.
Proof. exact svd_exists. Qed.
Print Assumptions C53_svd_exists.
(** The operator norm is the largest u^T X v over the two unit balls, the nuclear norm the largest trace of X^T Y over the operator norm unit ball. *)
Theorem C53_norms : forall r c X, length X = (r * c)%nat -> is_lub (op_set r c X) (op_norm r c X) /\ is_lub (nuc_set r c X) (nuc_norm r c X).
Proof. intros r c X L. split; [apply op_lub|apply nuc_lub]; auto. Qed.
Print Assumptions C53_norms.
(** On any decomposition they are the largest singular value and the sum of the singular values. *)
Theorem C53_singular_values : forall r c X U D V, (1 <= r)%nat -> (1 <= c)%nat -> is_svd r c X U D V -> nuc_norm r c X = vsum D /\ op_norm r c X = nth 0 D 0.
Proof. intros r c X U D V Hr Hc Sv. destruct (D_app r c Hr Hc X U D V Sv) as (A & B & _). auto. Qed.
Print Assumptions C53_singular_values.
(** lagrange_prox and bound_prox at X: the unique minimizer among all r by c matrices, in Frobenius distance. *)
Theorem C53_lagrange_prox : forall r c svd X U D V k L lam, (1 <= r)%nat -> (1 <= c)%nat -> length X = (r * c)%nat -> svd X = (U, D, V) -> is_svd r c X U D V -> 0 < L -> 0 <= lam ->
  exists e, sn_lagrange_prox k r c svd X L lam = Ok e /\ is_unique_argmin (r * c) (prox_objective L X (fun Y => Fin (lam * matrix_norm k r c Y))) e.
Proof. intros r c svd X U D V k L lam Hr Hc LX Es Sv HL Hl. exact (sn_lagrange_ok r c svd Hr Hc X U V D LX Es Sv k L lam HL Hl). Qed.
Print Assumptions C53_lagrange_prox.
Theorem C53_bound_prox : forall r c svd X U D V k b, (1 <= r)%nat -> (1 <= c)%nat -> length X = (r * c)%nat -> svd X = (U, D, V) -> is_svd r c X U D V -> 0 <= b ->
  exists e, sn_bound_prox k r c svd X b = Ok e /\ is_proj (r * c) (fun Y => matrix_norm k r c Y <= b) X e.
Proof. intros r c svd X U D V k b Hr Hc LX Es Sv Hb. exact (sn_bound_ok r c svd Hr Hc X U V D LX Es Sv k b Hb). Qed.
Print Assumptions C53_bound_prox.
(** proximal() with offset and quadratic, in both modes. *)
Theorem C53_proximal : forall n a m p svd, satom_wf n a m -> (1 <= sa_r a)%nat -> (1 <= sa_c a)%nat -> svd_ok (sa_r a) (sa_c a) svd -> q_shape n p -> 0 < coef (b_quadratic (m_base (sa_moded a))) + coef p -> some_array (m_base (sa_moded a)) p ->
  exists v, satom_proximal svd a (AQuad p) = Ok v /\ prox_spec n (gmode (snfun (sa_k a) (sa_r a) (sa_c a)) m) (m_base (sa_moded a)) p v.
Proof. exact satom_proximal_ok. Qed.
Print Assumptions C53_proximal.
(** nonsmooth_objective() in Lagrange mode. *)
Theorem C53_value : forall n a lam x svd chk, satom_wf n a (Lagrange lam) -> (1 <= sa_r a)%nat -> (1 <= sa_c a)%nat -> svd_ok (sa_r a) (sa_c a) svd -> length x = n ->
  satom_objective svd a x chk = Ok (moded_doc n (snfun (sa_k a) (sa_r a) (sa_c a)) (sa_moded a) (Lagrange lam) x).
Proof. exact satom_value_ok. Qed.
Print Assumptions C53_value.
(** ... and in bound mode: infinite exactly beyond the relative tolerance 1e-5. *)
Theorem C53_feasibility : forall n a b x svd, satom_wf n a (Bound b) -> (1 <= sa_r a)%nat -> (1 <= sa_c a)%nat -> svd_ok (sa_r a) (sa_c a) svd -> length x = n ->
  let q := quad_fun (coef (b_quadratic (m_base (sa_moded a)))) (fbcast n (center (b_quadratic (m_base (sa_moded a))))) (fbcast n (linear_term (b_quadratic (m_base (sa_moded a))))) (constant_term (b_quadratic (m_base (sa_moded a)))) x in
  let y := vsub x (base_off n (m_base (sa_moded a))) in
  satom_objective svd a x true = Ok (if Rle_dec (matrix_norm (sa_k a) (sa_r a) (sa_c a) y) (b * (1 + / 10 ^ 5)) then Fin q else PInf) /\
  satom_objective svd a x false = Ok (Fin q).
Proof. exact satom_feasible. Qed.
Print Assumptions C53_feasibility.
(** The two norms are dual to each other: conjugates are exact, and conjugating twice gives the function back. *)
Theorem C53_conjugate : forall n a m, satom_wf n a m -> coef (b_quadratic (m_base (sa_moded a))) = 0 ->
  exists d, satom_conjugate a = Some (Ok d) /\ sa_k d = spair (sa_k a) /\ sa_r d = sa_r a /\ sa_c d = sa_c a /\ satom_wf n d (dual_mode m) /\
    (forall u, length u = n -> is_fenchel n (moded_doc n (snfun (sa_k a) (sa_r a) (sa_c a)) (sa_moded a) m) u (moded_doc n (snfun (sa_k d) (sa_r d) (sa_c d)) (sa_moded d) (dual_mode m) u)) /\
    exists e, satom_conjugate d = Some (Ok e) /\ sa_k e = sa_k a /\ sa_r e = sa_r a /\ sa_c e = sa_c a /\ satom_wf n e m /\
      forall v, length v = n -> moded_doc n (snfun (sa_k e) (sa_r e) (sa_c e)) (sa_moded e) m v = moded_doc n (snfun (sa_k a) (sa_r a) (sa_c a)) (sa_moded a) m v.
Proof. exact satom_conjugate_ok. Qed.
Print Assumptions C53_conjugate.
Theorem C53_construct : forall k r c m o q, mode_ok m -> (forall v, o = Some v -> length v = (r * c)%nat) -> q_shape (r * c) q ->
  exists a, new_satom k r c (lag_of m) (bnd_of m) o (Some q) = Ok a /\ sa_k a = k /\ sa_r a = r /\ sa_c a = c /\ satom_wf (r * c) a m /\ m_base (sa_moded a) = new_base (r * c) o (Some q).
Proof. exact satom_new. Qed.
Print Assumptions C53_construct.
Theorem C53_copy : forall n a m, satom_wf n a m -> satom_copy a = Ok a.
Proof. exact satom_copy_ok. Qed.
Print Assumptions C53_copy.

(** ** Epigraph cones *)
(** cone_prox is the projection on the documented cone. *)
Theorem C53_cone_prox : forall r c svd, (1 <= r)%nat -> (1 <= c)%nat -> svd_ok r c svd -> forall k x, length x = S (r * c) -> exists e, ec_prox k r c svd x = Ok e /\ is_proj (S (r * c)) (in_econe k r c) x e.
Proof. exact ec_prox_ok. Qed.
Print Assumptions C53_cone_prox.
Theorem C53_cone_proximal : forall n a p svd, econe_wf n a -> (1 <= ec_r a)%nat -> (1 <= ec_c a)%nat -> svd_ok (ec_r a) (ec_c a) svd -> q_shape n p -> 0 < coef (b_quadratic (ec_base a)) + coef p -> some_array (ec_base a) p ->
  exists v, econe_proximal svd a (AQuad p) = Ok v /\ prox_spec n (econe_fun (ec_k a) (ec_r a) (ec_c a)) (ec_base a) p v.
Proof. exact econe_proximal_ok. Qed.
Print Assumptions C53_cone_proximal.
(** The conjugate of the indicator of each cone is the indicator of the paired one, with offset and linear term carried over. *)
Theorem C53_cone_conjugate : forall n a, econe_wf n a -> coef (b_quadratic (ec_base a)) = 0 ->
  exists d, econe_conjugate a = Ok d /\ ec_k d = epair (ec_k a) /\ ec_r d = ec_r a /\ ec_c d = ec_c a /\ econe_wf n d /\
    (forall u, length u = n -> is_fenchel n (base_doc n (econe_fun (ec_k a) (ec_r a) (ec_c a)) (ec_base a)) u (base_doc n (econe_fun (ec_k d) (ec_r d) (ec_c d)) (ec_base d) u)) /\
    exists e, econe_conjugate d = Ok e /\ ec_k e = ec_k a /\ ec_r e = ec_r a /\ ec_c e = ec_c a /\ econe_wf n e /\
      forall v, length v = n -> base_doc n (econe_fun (ec_k e) (ec_r e) (ec_c e)) (ec_base e) v = base_doc n (econe_fun (ec_k a) (ec_r a) (ec_c a)) (ec_base a) v.
Proof. exact econe_conjugate_ok. Qed.
Print Assumptions C53_cone_conjugate.
(** With a quadratic there is no conjugate: smooth_conjugate is not imported. *)
Theorem C53_cone_conjugate_refuted : forall a, coef (b_quadratic (ec_base a)) <> 0 -> econe_conjugate a = Err NameError.
Proof. exact econe_conjugate_name. Qed.
Print Assumptions C53_cone_conjugate_refuted.
(** Feasibility: members are accepted by all four tests; three of them refuse whatever is outside the slack of 1e-5. *)
Theorem C53_cone_objective_partial : forall n a x svd, econe_wf n a -> (1 <= ec_r a)%nat -> (1 <= ec_c a)%nat -> svd_ok (ec_r a) (ec_c a) svd -> length x = n ->
  let y := vsub x (base_off n (ec_base a)) in
  econe_objective svd a x false = Ok (base_doc n (fun _ => Fin 0) (ec_base a) x) /\
  (in_econe (ec_k a) (ec_r a) (ec_c a) y -> econe_objective svd a x true = Ok (base_doc n (econe_fun (ec_k a) (ec_r a) (ec_c a)) (ec_base a) x)) /\
  (ec_k a <> ENuclear -> ~ slack_econe (ec_k a) (ec_r a) (ec_c a) y -> econe_objective svd a x true = Ok PInf).
Proof. exact econe_objective_ok. Qed.
Print Assumptions C53_cone_objective_partial.
(** The test of nuclear_norm_epigraph leaves out the largest singular value: it accepts (X, t) when nuclear norm - operator norm <= (1 + 1e-5) t. *)
Theorem C53_epigraph_test : forall r c svd, (1 <= r)%nat -> (1 <= c)%nat -> svd_ok r c svd -> forall X t, length X = (r * c)%nat ->
  ec_constraint ENuclear r c svd (X ++ [t]) = Ok (if Rle_dec (nuc_norm r c X - op_norm r c X) ((1 + / 10 ^ 5) * t) then Fin 0 else PInf).
Proof. intros r c svd Hr Hc OK X t LX. rewrite (ec_test r c svd Hr Hc OK ENuclear X t LX). unfold rleb, tol. destruct (Rle_dec _ _); reflexivity. Qed.
Print Assumptions C53_epigraph_test.
Theorem C53_epigraph_refuted : forall svd, svd_ok 1 1 svd -> ec_constraint ENuclear 1 1 svd [5; 0] = Ok (Fin 0) /\ nuc_norm 1 1 [5] = 5 /\ ~ slack_econe ENuclear 1 1 [5; 0].
Proof. exact nuclear_accepts. Qed.
Print Assumptions C53_epigraph_refuted.
Theorem C53_cone_copy : forall n a, econe_wf n a -> econe_copy a = a.
Proof. exact econe_copy_ok. Qed.
Print Assumptions C53_cone_copy.
(** == looks at the number of entries only: the cones of 2 by 3 and of 3 by 2 matrices compare equal and are different sets. *)
Theorem C53_equality_refuted : econe_eq (new_econe ENuclear 2 3 None None) (new_econe ENuclear 3 2 None None) = true /\
  in_econe ENuclear 3 2 [1; 0; 0; 0; 1; 0; 3 / 2] /\ ~ in_econe ENuclear 2 3 [1; 0; 0; 0; 1; 0; 3 / 2].
Proof. exact econe_eq_wrong. Qed.
Print Assumptions C53_equality_refuted.
(** get_dual() calls a property object. *)
Theorem C53_get_dual_refuted : forall a b, satom_get_dual a = Err TypeError /\ econe_get_dual b = Err TypeError.
Proof. intros. split; reflexivity. Qed.
Print Assumptions C53_get_dual_refuted.

(** The hypotheses can be met: an exact decomposition function for columns, and objects built by the constructors. *)
Example C53_witness : svd_ok 2 1 (col_svd 2) /\ exists a, new_satom SNuclear 2 1 (Some 3) None (Some [1; 0]) None = Ok a /\ satom_wf 2 a (Lagrange 3).
Proof.
  split; [apply col_svd_ok; lia|]. destruct (satom_new SNuclear 2 1 (Lagrange 3) (Some [1; 0]) (mk_iq 0 (FScal 0) (FScal 0) 0)) as (a & E & _ & _ & _ & W & _); [simpl; lra|intros v E; injection E as <-; reflexivity|split; exact I|].
  exists a. split; [exact E|exact W].
Qed.
Print Assumptions C53_witness.
Example C53_cone_witness : econe_wf 3 (new_econe EOperator 2 1 (Some [1; 0; 2]) None).
Proof. split; [reflexivity|]. apply new_base_wf; [intros v E; injection E as <-; reflexivity|split; exact I]. Qed.
Print Assumptions C53_cone_witness.
(** The column (3, 4) has both norms 5; the 2 by 3 matrix with rows (1,0,0), (0,1,0) has nuclear norm 2 *)
Example C53_values : nuc_norm 2 1 [3; 4] = 5 /\ op_norm 2 1 [3; 4] = 5 /\ nuc_norm 2 3 [1; 0; 0; 0; 1; 0] = 2.
Proof.
  assert (N1 : norm [3; 4] = 5) by (unfold norm, sqn, dot; cbn; replace (3 * 3 + (4 * 4 + 0)) with (5 * 5) by lra; apply sqrt_square; lra).
  destruct (col_norms 2 [3; 4] ltac:(lia) eq_refl) as [A B]. rewrite A, B, N1. split; auto. split; auto. apply nuc23.
Qed.
Print Assumptions C53_values.
