(** Proofs about cones and other atoms put after a matrix by their class methods. *)
From Coq Require Import Reals List ZArith Bool Lra Lia Arith Permutation.
From Verif Require Import M_affine SpecAffine Vec Spec M_quad P_quad M_prox M_semi SpecAtom P_semi P_conj M_shift SpecBase SpecMode M_mode SpecModed M_mixed SpecWeighted M_weighted SpecWatom P_weighted
  M_group SpecGatom M_simplex M_slope SpecSlope P_slope M_sgl P_gauge P_block3 SpecCone M_cones P_cones M_afatom P_afatom P_equal2 M_compose.
Import ListNotations.
Local Open Scope R_scope.

Lemma new_base_wf : forall n (o : vec) q, length o = n -> q_shape n q -> base_wf n (new_base n (Some o) (Some q)).
Proof. intros n o q Ho Hq. split; auto. split; auto. cbn. intros p. destruct (M_quad.all_zero o) eqn:E; [discriminate|]. intros Ep. injection Ep as <-. split; auto. intros C. rewrite C, P_semi.all_zero_zeros in E. discriminate. Qed.
Lemma new_base_off : forall n (o : vec) q, length o = n -> base_off n (new_base n (Some o) q) = o.
Proof. intros n o q Ho. unfold base_off. cbn. destruct (M_quad.all_zero o) eqn:E; auto. apply -> P_quad.all_zero_spec in E. cbn. congruence. Qed.
Lemma cone_affine_built : forall k D n (alpha : vec) q, length alpha = length D -> q_shape (length D) q ->
  cone_affine k D n (Some alpha) (Some q) = Ok (mk_affine_cone (mk_cone k (new_base (length D) (Some (vopp alpha)) (Some q))) (matrix D n None)) /\
  cone_linear k D n (Some alpha) (Some q) = cone_affine k D n (Some alpha) (Some q) /\ base_wf (length D) (new_base (length D) (Some (vopp alpha)) (Some q)) /\ base_off (length D) (new_base (length D) (Some (vopp alpha)) (Some q)) = vopp alpha.
Proof.
  intros k D n alpha q La Hq. assert (Lo : length (vopp alpha) = length D) by (rewrite vopp_length; auto). pose proof (new_base_wf _ _ _ Lo Hq) as W. split; [|split; [reflexivity|split; [auto|apply new_base_off; auto]]].
  unfold cone_affine, new_affine_cone. cbn [option_map]. unfold new_cone. rewrite (cone_copied (length D)) by (exact W). reflexivity.
Qed.
Theorem cone_affine_value : forall k D n (alpha : vec) q x, cone_dim k (length D) -> length alpha = length D -> q_shape (length D) q -> length x = n ->
  exists A, cone_affine k D n (Some alpha) (Some q) = Ok A /\ cone_linear k D n (Some alpha) (Some q) = Ok A /\
    ac_objective A x false = Ok (Fin (q_denot (length D) q (mat_vec D x))) /\
    (in_cone k (vadd (mat_vec D x) alpha) -> ac_objective A x true = Ok (Fin (q_denot (length D) q (mat_vec D x)))) /\
    (~ relax k (vadd (mat_vec D x) alpha) -> ac_objective A x true = Ok PInf).
Proof.
  intros k D n alpha q x Hd La Hq Lx. destruct (cone_affine_built k D n alpha q La Hq) as (E1 & E2 & W & O). eexists. split; [exact E1|]. split; [rewrite E2; exact E1|].
  unfold ac_objective. cbn [ac_cone ac_map]. assert (Lv : length (mat_vec D x) = length D) by apply map_length.
  destruct (cone_objective_correct k (length D) _ (mat_vec D x) Hd W Lv) as (H1 & H2 & H3). rewrite O, vsub_vopp in H2, H3 by congruence.
  assert (T : t_lin (matrix D n None) x = mat_vec D x) by reflexivity. rewrite T. split; [rewrite H1; unfold base_doc; cbn; rewrite Rplus_0_l; reflexivity|]. split; [|exact H3].
  intros I. rewrite H2 by auto. unfold base_doc. rewrite O, vsub_vopp by congruence. unfold cone_fun. destruct (in_cone_dec k _); [|contradiction]. cbn. rewrite Rplus_0_l. reflexivity.
Qed.
Theorem cone_linear_value : forall k D n q x, cone_dim k (length D) -> q_shape (length D) q -> length x = n ->
  exists A, cone_linear k D n None (Some q) = Ok A /\ cone_affine k D n None (Some q) = Ok A /\
    ac_objective A x false = Ok (Fin (q_denot (length D) q (mat_vec D x))) /\
    (in_cone k (mat_vec D x) -> ac_objective A x true = Ok (Fin (q_denot (length D) q (mat_vec D x)))) /\
    (~ relax k (mat_vec D x) -> ac_objective A x true = Ok PInf).
Proof.
  intros k D n q x Hd Hq Lx. assert (W : base_wf (length D) (new_base (length D) None (Some q))). { split; auto. split; auto. cbn. discriminate. }
  assert (E : cone_linear k D n None (Some q) = Ok (mk_affine_cone (mk_cone k (new_base (length D) None (Some q))) (matrix D n None))).
  { unfold cone_linear, new_affine_cone. cbn [option_map]. unfold new_cone. rewrite (cone_copied (length D)) by (exact W). reflexivity. }
  eexists. split; [exact E|]. split; [exact E|]. unfold ac_objective. cbn [ac_cone ac_map]. assert (Lv : length (mat_vec D x) = length D) by apply map_length.
  destruct (cone_objective_correct k (length D) _ (mat_vec D x) Hd W Lv) as (H1 & H2 & H3).
  assert (O : vsub (mat_vec D x) (base_off (length D) (new_base (length D) None (Some q))) = mat_vec D x). { unfold base_off. cbn. apply vsub_zeros_r. exact Lv. }
  rewrite O in H2, H3. assert (T : t_lin (matrix D n None) x = mat_vec D x) by reflexivity. rewrite T. split; [rewrite H1; unfold base_doc; cbn; rewrite Rplus_0_l; reflexivity|]. split; [|exact H3].
  intros I. rewrite H2 by auto. unfold base_doc. rewrite O. unfold cone_fun. destruct (in_cone_dec k _); [|contradiction]. cbn. rewrite Rplus_0_l. reflexivity.
Qed.
(** The dual: the matrix and the Fenchel conjugate of v |-> [v + alpha in the cone] + q(v). *)
Theorem cone_affine_dual : forall k D n (alpha : vec) q, cone_dim k (length D) -> length alpha = length D -> q_shape (length D) q -> coef q = 0 ->
  exists A d, cone_affine k D n (Some alpha) (Some q) = Ok A /\ ac_dual A = Some (matrix D n None, mk_cone (polar_class k) d) /\
    forall u, length u = length D -> is_fenchel (length D) (fun v => ext_add (cone_fun k (vadd v alpha)) (Fin (q_denot (length D) q v))) u (base_doc (length D) (cone_fun (polar_class k)) d u).
Proof.
  intros k D n alpha q Hd La Hq Hc. destruct (cone_affine_built k D n alpha q La Hq) as (E1 & E2 & W & O).
  destruct (cone_conjugate_correct k (length D) _ Hd W Hc) as (d & Ed & Wd & F & _). eexists. exists d. split; [exact E1|].
  unfold ac_dual. cbn [ac_cone ac_map]. rewrite (cone_copied (length D)) by exact W. cbn [c_class c_base]. split.
  - change (mk_base (t_out (matrix D n None)) _ _) with (new_base (length D) (Some (vopp alpha)) (Some q)). rewrite Ed. reflexivity.
  - intros u Lu. specialize (F u Lu). 
    apply (is_fenchel_ext _ (base_doc (length D) (cone_fun k) (new_base (length D) (Some (vopp alpha)) (Some q)))); auto.
    intros v Lv. unfold base_doc. rewrite O, vsub_vopp by congruence. reflexivity.
Qed.
(** affine_cone over a transform with its own offset: the offset becomes the center, so the sign is wrong *)
Theorem affine_cone_sign : exists A, new_affine_cone (new_cone KNonneg 1 None None) (matrix [[1]] 1 (Some [1])) true = Ok A /\ t_aff (matrix [[1]] 1 (Some [1])) [0] = [1] /\ in_cone KNonneg [1] /\ ac_objective A [0] true = Ok PInf.
Proof.
  unfold new_affine_cone, new_cone, cone_copy, new_base, fresh_offset. cbn. destruct (Req_EM_T 1 0); [lra|]. cbn. eexists. split; [reflexivity|]. split; [unfold mat_vec, vadd, dot, vmul; cbn; f_equal; lra|]. split; [repeat constructor; lra|].
  unfold ac_objective. cbn [ac_cone ac_map t_lin]. replace (mat_vec [[1]] [0]) with [0] by (unfold mat_vec, dot, vmul; cbn; f_equal; lra).
  match goal with |- cone_objective (mk_cone KNonneg ?g) _ _ = _ => assert (W : base_wf 1 g) end.
  { split; auto. split; [|split; cbn; auto]. cbn. intros o E. injection E as <-. split; auto. intros C. injection C. lra. }
  apply (cone_objective_correct KNonneg 1 _ [0] ltac:(cbn; lia) W eq_refl). intros H. inversion H as [|? ? H0 _]. unfold base_off in H0. cbn in H0. unfold ellinf in H0. cbn in H0. revert H0. rewrite Rabs_left by lra. unfold Rmax. destruct (Rle_dec _ _); lra.
Qed.

(** ** classes whose first argument is not a shape *)
Theorem watom_linear_broken : forall c D lam q, 0 <= lam -> exists A, watom_linear c D (Some lam) None q None = Ok A /\ w_weights (aw_atom A) = [Fin (INR (length D))] /\ b_shape (m_base (w_moded (aw_atom A))) = 1%nat /\
  (length D <> 1%nat -> forall x chk, aw_objective A x chk = Err IndexError).
Proof.
  intros c D lam q Hl. unfold watom_linear. assert (H : Forall weight_legal [Fin (INR (length D))]) by (constructor; [cbn; apply pos_INR|constructor]).
  pose proof (proj1 (new_watom_correct c _ (Lagrange lam) None q Hl) H) as E0. cbn [lag_of bnd_of] in E0. cbn [option_map]. rewrite E0. eexists. split; [reflexivity|]. split; [reflexivity|]. split; [reflexivity|]. intros N x chk. unfold aw_objective. cbn [aw_atom aw_rows w_weights length].
  destruct (Nat.eqb 1 (length D)) eqn:E; auto. apply Nat.eqb_eq in E. congruence.
Qed.
Lemma vsum_const : forall (l : vec) r, 0 <= r -> vsum (vabs (vmul l (repeat r (length l)))) = r * vsum (vabs l).
Proof. induction l as [|a l IH]; intros r Hr; [unfold vmul, vabs; cbn; ring|]. specialize (IH r Hr). change (Rabs (a * r) + vsum (vabs (vmul l (repeat r (length l)))) = r * (Rabs a + vsum (vabs l))). rewrite IH, Rabs_mult, (Rabs_right r) by lra. ring. Qed.
Theorem slope_linear_value : forall D lam x chk, 0 <= lam -> (1 <= length D)%nat -> exists A, slope_linear SSlope D (Some lam) None None None = Ok A /\ b_shape (m_base (M_slope.s_moded (asl_atom A))) = 1%nat /\
  asl_objective A x chk = Ok (Fin (lam * (INR (length D) * ell1 (mat_vec D x)))).
Proof.
  intros D lam x chk Hl HD. unfold slope_linear. assert (P : 0 < INR (length D)) by (apply lt_0_INR; lia).
  assert (W : slope_weights 1 [INR (length D)]). { split; auto. split; [repeat constructor; auto|]. cbn. repeat constructor. }
  pose proof (new_slope_ok SSlope 1 _ (Lagrange lam) None None W Hl) as E0. cbn [lag_of bnd_of] in E0. cbn [option_map]. rewrite E0. eexists. split; [reflexivity|]. split; [reflexivity|].
  unfold asl_objective. cbn [asl_atom asl_rows M_slope.s_weights M_slope.s_moded s_class]. unfold moded_objective, shifted_objective, base_apply_offset. cbn. unfold q_func. cbn. f_equal. f_equal.
  set (y := mat_vec D x). assert (L : length y = length (rev (np_sort (vabs y)))) by (rewrite rev_length, np_sort_length; unfold vabs; rewrite map_length; auto). rewrite L, vsum_const by lra.
  assert (E : vsum (vabs (rev (np_sort (vabs y)))) = ell1 y).
  { unfold ell1. rewrite (vsum_perm (vabs (rev (np_sort (vabs y)))) (vabs (vabs y))).
    - unfold vabs. rewrite map_map. apply f_equal. apply map_ext. intros a. apply Rabs_Rabsolu.
    - unfold vabs at 1 3. apply Permutation_map. apply Permutation_sym. apply (Permutation_trans (np_sort_perm _)). apply Permutation_rev. }
  rewrite E. assert (Z : vsum (map (fun t : R => 0 * t) y) = 0) by (clearbody y; clear; induction y as [|a l IH]; [reflexivity|change (0 * a + vsum (map (fun t : R => 0 * t) l) = 0); rewrite IH; ring]). rewrite Z. field.
Qed.
Theorem gatom_linear_broken : forall dual D lam q, 0 <= lam -> exists a, gatom_linear dual D (Some lam) None q None = Ok a /\ b_shape (m_base (g_moded a)) = 1%nat.
Proof. intros dual D lam q Hl. unfold gatom_linear, new_gatom. pose proof (new_moded_ok (length [Z.of_nat (length D)]) (Lagrange lam) None q Hl) as E0. cbn [lag_of bnd_of] in E0. cbn [option_map]. rewrite E0. eexists. split; reflexivity. Qed.
Theorem gcone_linear_broken : forall k D o q, b_shape (gc_base (gcone_linear k D o q)) = 2%nat.
Proof. reflexivity. Qed.
