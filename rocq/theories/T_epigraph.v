(** More about C14 and C59: the l2 epigraph and its polar at every interior point and on the axis. *)
From Coq Require Import Reals List Lra Lia Arith Bool.
From Verif Require Import M_affine M_loss M_smooth Vec Spec SpecConvex M_quad P_quad P_calc P_loss M_semi SpecAtom M_shift SpecBase SpecCone M_cones P_cones M_fista SpecFista M_problem SpecProblem P_problem SpecSepconj P_sepconj.
Import ListNotations.
Local Open Scope R_scope.

Lemma l2_prox_moves : forall v t, 0 < norm v -> norm v < t -> exists p, cone_prox KL2 (v ++ [t]) = Ok p /\ length p = length (v ++ [t]) /\ sqn (vsub (v ++ [t]) p) = (t - norm v) * (t - norm v) / 2.
Proof.
  intros v t Hv Ht. assert (Nv : v <> []) by (intros ->; unfold norm, sqn, dot in Hv; cbn in Hv; rewrite sqrt_0 in Hv; lra).
  cbn [cone_prox]. rewrite l2_prox_form by (auto; lra). rewrite Rmax_left by lra. eexists. split; [reflexivity|]. split; [rewrite !app_length; f_equal; unfold vscal; apply map_length|].
  set (s := (norm v + t) / 2 / norm v). assert (E : vsub (v ++ [t]) (vscal s v ++ [(norm v + t) / 2]) = vscal (1 - s) v ++ [t - (norm v + t) / 2]).
  { generalize ((norm v + t) / 2). intros b. generalize s. clear. intros s. induction v as [|a v IH]; cbn; [reflexivity|]. unfold vsub in *. cbn. f_equal; [ring|apply IH]. }
  rewrite E. assert (A : forall (a : vec) b, sqn (a ++ [b]) = sqn a + b * b). { induction a as [|c a IH]; intros b; cbn [app]; rewrite ?sqn_cons; [unfold sqn, dot; cbn; ring|]. rewrite IH. ring. }
  rewrite A, sqn_scal, <- norm_sq. unfold s. field. lra.
Qed.
(** Every point strictly inside the cone, off its axis, is moved, by (t - |v|)/sqrt 2. *)
Theorem C14_every_interior_refuted : forall v t, 0 < norm v -> norm v < t ->
  in_cone KL2 (v ++ [t]) /\ exists p, cone_prox KL2 (v ++ [t]) = Ok p /\ sqn (vsub (v ++ [t]) p) = (t - norm v) * (t - norm v) / 2 /\ ~ is_proj (length (v ++ [t])) (in_cone KL2) (v ++ [t]) p.
Proof.
  intros v t Hv Ht. assert (I : in_cone KL2 (v ++ [t])) by (apply (epi_bwd KL2); [reflexivity|lra]). split; auto. destruct (l2_prox_moves v t Hv Ht) as (p & E & L & D). exists p. split; auto. split; auto.
  intros (_ & _ & H). destruct (H (v ++ [t]) eq_refl I) as [H1 _]. rewrite D, vsub_self, sqn_zeros in H1. nra.
Qed.
Print Assumptions C14_every_interior_refuted.
Theorem C14_every_polar_interior_refuted : forall v t, 0 < norm v -> norm v < - t ->
  in_cone KL2Polar (v ++ [t]) /\ exists p, cone_prox KL2Polar (v ++ [t]) = Ok p /\ sqn (vsub (v ++ [t]) p) = (- t - norm v) * (- t - norm v) / 2 /\ ~ is_proj (length (v ++ [t])) (in_cone KL2Polar) (v ++ [t]) p.
Proof.
  intros v t Hv Ht. assert (I : in_cone KL2Polar (v ++ [t])) by (apply (epi_bwd KL2Polar); [reflexivity|lra]). split; auto.
  destruct (l2_prox_moves (vopp v) (- t)) as (p & E & L & D); try (rewrite norm_opp; lra). rewrite norm_opp in D. assert (EV : vopp (v ++ [t]) = vopp v ++ [- t]) by (rewrite vopp_app; reflexivity).
  exists (vopp p). cbn [cone_prox] in *. rewrite EV, E. cbn [rmap]. split; [reflexivity|].
  assert (K : sqn (vsub (v ++ [t]) (vopp p)) = (- t - norm v) * (- t - norm v) / 2).
  { rewrite <- D, <- EV. rewrite <- EV in L. assert (L' : length (v ++ [t]) = length p) by (rewrite L; unfold vopp; rewrite map_length; reflexivity). generalize dependent p. generalize (v ++ [t]). clear. intros x p _ _ _ L.
    rewrite <- sqn_opp. f_equal. revert x L. induction p as [|b p IH]; intros [|a x] L; try discriminate; auto. unfold vsub, vopp in *. cbn. f_equal; [ring|apply IH; injection L; auto]. }
  split; auto. intros (_ & _ & H). destruct (H (v ++ [t]) eq_refl I) as [H1 _]. rewrite K, vsub_self, sqn_zeros in H1. nra.
Qed.
Print Assumptions C14_every_polar_interior_refuted.
(** On the whole axis, the apex included, the proximal map divides 0 by 0, in any dimension. *)
Theorem C14_whole_axis_refuted : forall n t, (1 <= n)%nat -> cone_prox KL2 (zeros n ++ [t]) = Err NaNResult /\ cone_prox KL2Polar (zeros n ++ [t]) = Err NaNResult.
Proof.
  assert (K : forall n t, (1 <= n)%nat -> l2_cone_prox (zeros n ++ [t]) = Err NaNResult).
  { intros [|n] t Hn; [lia|]. unfold l2_cone_prox. destruct (zeros (S n) ++ [t]) as [|a l] eqn:E; [discriminate|]. rewrite <- E. rewrite removelast_last. cbv zeta. destruct (zeros (S n)) as [|b w] eqn:Z; [discriminate|]. rewrite <- Z.
    assert (N : norm (zeros (S n)) = 0) by (unfold norm; rewrite sqn_zeros; apply sqrt_0). rewrite N. destruct (Req_EM_T 0 0); [reflexivity|contradiction]. }
  intros n t Hn. cbn [cone_prox]. split; auto. rewrite vopp_app. assert (Z : vopp (zeros n) = zeros n). { clear. induction n; auto. unfold vopp, zeros in *. cbn. f_equal; [ring|auto]. }
  rewrite Z. change (vopp [t]) with [- t]. rewrite K by auto. reflexivity.
Qed.
Print Assumptions C14_whole_axis_refuted.
Example C14_interior_case : 0 < norm [3] /\ norm [3] < 5 /\ norm [3] < - -5.
Proof. rewrite norm1 by lra. lra. Qed.

Lemma through_identity : forall g q z f, b_offset g = None -> shifted_prox g (AQuad q) (fun x _ => Ok x) = Ok z -> shifted_prox g (AQuad q) (fun x _ => f x) = f z.
Proof.
  intros g q z f Hg H. unfold shifted_prox in *. rewrite Hg in *. destruct (q_add (b_quadratic g) (AQuad q)) as [s|]; [|discriminate]. cbn [rbind recenter] in *. destruct (Req_EM_T (coef (collapsed s)) 0); [discriminate|].
  destruct (linear_term (collapsed s)); try discriminate. injection H as <-. reflexivity.
Qed.
Lemma cone_unit : forall k n z, (1 <= n)%nat -> length z = n -> cone_proximal (mk_cone k (new_base n None None)) (AQuad (unit_step z)) = cone_prox k z.
Proof.
  intros k n z Hn Lz. assert (Z := zero_prox_unit n z Hn Lz). unfold cone_proximal, new_cone in *. cbn [c_base c_class cone_prox] in *. apply through_identity; auto.
Qed.
Lemma moved_not_prox : forall k n x p, length x = n -> in_cone k x -> 0 < sqn (vsub x p) -> ~ prox_spec n (cone_fun k) (new_base n None None) (unit_step x) p.
Proof.
  intros k n x p Lx I D ((Lp & (r & Er) & M) & _). specialize (M x Lx).
  assert (V : forall y, length y = n -> ext_add (base_doc n (cone_fun k) (new_base n None None) y) (Fin (quad_fun (coef (unit_step x)) (fbcast n (center (unit_step x))) (fbcast n (linear_term (unit_step x))) (constant_term (unit_step x)) y)) = ext_add (cone_fun k y) (Fin (1 / 2 * sqn (vsub y x)))).
  { intros y Ly. assert (Q : cone_fun k (vsub y (zeros n)) = cone_fun k y) by (rewrite vsub_zeros_r; auto). unfold base_doc, base_off. cbn [new_base b_quadratic b_offset fresh_offset off_vec]. rewrite Q. destruct (cone_fun k y); cbn [ext_add]; auto. f_equal.
    unfold quad_fun, unit_step. cbn [coef center linear_term constant_term fbcast]. change (const_vec n 0) with (zeros n). rewrite !dot_zeros_l. lra. }
  rewrite V in Er, M by auto. rewrite V in M by auto. rewrite (cone_fun_in k x I), vsub_self, sqn_zeros in M. destruct (cone_fun k p) as [c|] eqn:Ec; [|discriminate]. apply cone_fun_fin in Ec. destruct Ec as [_ ->]. cbn in M.
  rewrite sqn_vsub_sym in M by congruence. lra.
Qed.
(** C59: the l2 epigraph and its polar as atoms, without offset or quadratic, on 1/2 |x - y|^2 at any y strictly inside the cone, off the axis: what proximal
    returns is not the minimizer. On the axis it is not a number. *)
Theorem C59_l2_epigraph_refuted : forall v t, 0 < norm v -> norm v < t -> let n := length (v ++ [t]) in
  (exists p, cone_proximal (new_cone KL2 n None None) (AQuad (unit_step (v ++ [t]))) = Ok p /\ ~ prox_spec n (cone_fun KL2) (new_base n None None) (unit_step (v ++ [t])) p) /\
  (exists p, cone_proximal (new_cone KL2Polar n None None) (AQuad (unit_step (v ++ [- t]))) = Ok p /\ ~ prox_spec n (cone_fun KL2Polar) (new_base n None None) (unit_step (v ++ [- t])) p).
Proof.
  intros v t Hv Ht n. assert (Hn : (1 <= n)%nat) by (unfold n; rewrite app_length; cbn; lia). assert (Hn' : length (v ++ [- t]) = n) by (unfold n; rewrite !app_length; reflexivity). unfold new_cone. rewrite !cone_unit by auto. split.
  - destruct (C14_every_interior_refuted v t Hv Ht) as (I & p & E & D & _). exists p. split; auto. apply moved_not_prox; auto. rewrite D. nra.
  - destruct (C14_every_polar_interior_refuted v (- t) Hv ltac:(lra)) as (I & p & E & D & _). exists p. split; auto. apply moved_not_prox; auto. rewrite D. nra.
Qed.
Print Assumptions C59_l2_epigraph_refuted.
Theorem C59_l2_axis_refuted : forall n t, (1 <= n)%nat ->
  cone_proximal (new_cone KL2 (S n) None None) (AQuad (unit_step (zeros n ++ [t]))) = Err NaNResult /\ cone_proximal (new_cone KL2Polar (S n) None None) (AQuad (unit_step (zeros n ++ [t]))) = Err NaNResult.
Proof.
  intros n t Hn. assert (L : length (zeros n ++ [t]) = S n) by (rewrite app_length; unfold zeros; rewrite repeat_length; cbn; lia). unfold new_cone. rewrite !cone_unit by (auto; lia). apply C14_whole_axis_refuted. auto.
Qed.
Print Assumptions C59_l2_axis_refuted.
