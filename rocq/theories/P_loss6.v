(** The Hessian of a generalized linear model. *)
From Coq Require Import Reals List Lra Lia Arith Bool.
From Verif Require Import M_affine SpecAffine P_affine P_affine2 M_buffer P_buffer Vec Spec M_quad SpecConvex M_loss SpecLoss M_smooth SpecSmooth P_quad P_calc P_sep P_loss P_loss2 P_loss4 P_smooth.
Import ListNotations.
Local Open Scope R_scope.

Lemma derive_vsum : forall n (F : nat -> R -> R) l a, (forall i, (i < n)%nat -> derivable_pt_lim (F i) a (nth i l 0)) -> length l = n ->
  derivable_pt_lim (fun t => vsum (map (fun i => F i t) (seq 0 n))) a (vsum l).
Proof.
  induction n as [|n IH]; intros F l a H L.
  - destruct l; [|discriminate]. apply (derivable_pt_lim_const 0).
  - destruct l as [|b l]; [discriminate|]. change (vsum (b :: l)) with (b + vsum l).
    apply (derive_ext (fun t => F 0%nat t + vsum (map (fun i => F (S i) t) (seq 0 n)))).
    + intros t. cbn [seq map]. rewrite <- seq_shift, map_map. reflexivity.
    + apply (derivable_pt_lim_plus (F 0%nat) (fun t => vsum (map (fun i => F (S i) t) (seq 0 n)))); [apply (H 0%nat); lia|]. apply IH; [|cbn in L; congruence]. intros i Hi. apply (H (S i)). lia.
Qed.
Lemma vsum_nths : forall n (v : vec), length v = n -> v = map (fun i => nth i v 0) (seq 0 n).
Proof. intros n v <-. induction v as [|a v IH]; auto. cbn [length seq map]. f_equal. rewrite <- seq_shift, map_map. exact IH. Qed.
Lemma derive_dot : forall m (G : R -> vec) l v a, (forall t, length (G t) = m) -> length l = m -> length v = m -> (forall i, (i < m)%nat -> derivable_pt_lim (fun t => nth i (G t) 0) a (nth i l 0)) ->
  derivable_pt_lim (fun t => dot (G t) v) a (dot l v).
Proof.
  intros m G l v a LG Ll Lv H. assert (Lz : forall x : vec, length x = m -> length (vmul x v) = m) by (intros; unfold vmul; apply zl; auto).
  apply (derive_ext (fun t => vsum (map (fun i => nth i (G t) 0 * nth i v 0) (seq 0 m)))).
  - intros t. unfold dot. f_equal. rewrite (vsum_nths m _ (Lz _ (LG t))). apply map_ext_in. intros i Hi. unfold vmul. rewrite (nth_zip0 _ _ _ m) by (auto; apply in_seq in Hi; lia). auto.
  - change (dot l v) with (vsum (vmul l v)). apply (derive_vsum m (fun i t => nth i (G t) 0 * nth i v 0)); auto. intros i Hi. unfold vmul. rewrite (nth_zip0 _ _ _ m) by auto.
    rewrite Rmult_comm. apply (derive_ext (fun t => nth i v 0 * nth i (G t) 0)); [intros; ring|]. apply (derivable_pt_lim_scal (fun t => nth i (G t) 0)). auto.
Qed.
Theorem jacobian_chain : forall T n m G H x, good_design T n m -> (forall y, length y = m -> length (G y) = m) -> (forall d, length d = m -> length (H d) = m) -> length x = n ->
  is_jacobian m G (t_lin T x) H -> is_jacobian n (fun b => t_adj T (G (t_lin T b))) x (fun d => t_adj T (H (t_lin T d))).
Proof.
  intros T n m G H x D LG LH Lx J d i Ld Hi. assert (D' := lin_design T n m D). destruct D as ((A1 & A2 & A3) & _ & En & Em). subst n m. set (e := unit_vec (t_in T) i). assert (Le : length e = t_in T) by apply unit_vec_length.
  assert (P : forall u : vec, length u = t_out T -> nth i (t_adj T u) 0 = dot u (t_lin T e)).
  { intros u Lu. rewrite <- (dot_unit (t_in T) i) by auto. fold e. rewrite dot_comm, <- A3 by auto. apply dot_comm. }
  assert (Ll : forall t, length (vadd x (vscal t d)) = t_in T) by (intros; unfold vadd, vscal; apply zl; [auto|rewrite map_length; auto]).
  rewrite P by (apply LH, A1; auto). apply (derive_ext (fun t => dot (G (vadd (t_lin T x) (vscal t (t_lin T d)))) (t_lin T e))).
  - intros t. rewrite P by (apply LG, A1, Ll). f_equal. f_equal. assert (Q := aff_line _ _ _ x d t D' Lx Ld). cbn in Q. symmetry. exact Q.
  - apply (derive_dot (t_out T)); auto.
    + intros t. apply LG. unfold vadd, vscal. apply zl; [auto|rewrite map_length; auto].
Qed.
(** [g] built from a design and a loss without offset or weights of its own: hessian(beta) applied to d is the derivative of the gradient in direction d. *)
Theorem glm_hessian : forall h l T n m q weights h1 g beta, new_glm h l T None q weights = (h1, Ok g) -> good_design T n m -> fits (l_fam l) m -> l_shape l = m -> l_cw l = None -> l_offset l = None ->
  twice_smooth (l_fam l) -> length beta = n -> Forall (hess_regular (l_fam l)) (t_lin T beta) ->
  exists G H, (forall b, length b = n -> snd (glm_eval h1 g b EvGrad) = Ok (VGrad (G b))) /\ (forall d, length d = n -> snd (glm_hess h1 g beta d) = Ok (H d)) /\ is_jacobian n G beta H.
Proof.
  intros h l T n m q weights h1 g beta E D F Sh Cw Of S Lb R. unfold new_glm in E. destruct (match weights with Some r => (h, r) | None => _ end) as [h0 r]. injection E as <- E.
  destruct (any_neg (read h0 r)); [discriminate|]. destruct (negb (Nat.eqb (length (read h0 r)) (l_shape l))) eqn:W; [discriminate|]. apply negb_false_iff, Nat.eqb_eq in W. apply Ok_inj in E. subst g.
  assert (D' := D). destruct D' as ((A1 & A2 & A3) & _ & En & Em). assert (L1 : length (read h0 r) = m) by congruence. assert (L2 : length (t_lin T beta) = m) by (rewrite A1; congruence).
  destruct (loss_hessian (l_fam l) m (l_coef l) (read h0 r) (t_lin T beta) F L1 L2 S R) as (w & Ew & Lw & J).
  exists (fun b => t_adj T (loss_grad (l_fam l) (l_coef l) None (read h0 r) (t_lin T b))), (fun d => t_adj T (vmul w (t_lin T d))). split; [|split].
  - intros b Hb. unfold glm_eval, loss_eval. cbn [g_loss g_cw g_map g_offset g_adj sub_offset]. rewrite weigh_none by auto. cbn [snd]. rewrite Of. destruct (value_modes (l_fam l) (l_coef l) None (read h0 r) (t_lin T b)) as (v & u & _ & Eg & _ & _ & _ & ->). rewrite Eg. reflexivity.
  - intros d Hd. unfold glm_hess, hess_eval. cbn [g_loss g_cw g_map g_adj]. rewrite weigh_none by auto. cbn [snd]. rewrite Ew. reflexivity.
  - apply (jacobian_chain T n m); auto.
    + intros y Ly. apply (loss_grad_cases (l_fam l) m (l_coef l) None (read h0 r) y F I L1 Ly).
    + intros d Hd. unfold vmul. apply zl; auto.
Qed.
(** With an offset in the glm the Hessian is taken at the wrong point. *)
Theorem glm_hess_offset : let l := mk_loss (Poisson [0]) 1 1 None (mk_iq 0 (FScal 0) (FScal 0) 0) None in let g := mk_glm l (fun x => x) (fun x => x) 1 (Some [1]) (mk_iq 0 (FScal 0) (FScal 0) 0) 0%nat in
  exists G H, (forall b, snd (glm_eval [[1]] g b EvGrad) = Ok (VGrad (G b))) /\ (forall d, snd (glm_hess [[1]] g [0] d) = Ok (H d)) /\ ~ is_jacobian 1 G [0] H.
Proof.
  cbv zeta. do 2 eexists. split; [|split].
  - intros b. unfold glm_eval, loss_eval, weigh. cbn. reflexivity.
  - intros d. unfold glm_hess, hess_eval, weigh. cbn. reflexivity.
  - intros J. specialize (J [1] 0%nat eq_refl ltac:(lia)). cbn in J.
    assert (D : derivable_pt_lim (fun t => exp (t - 1)) 0 (exp (0 - 1) * (1 - 0))).
    { apply (derivable_pt_lim_comp (fun t => t - 1) exp); [|apply derivable_pt_lim_exp]. apply (derivable_pt_lim_minus id (fun _ => 1)); [apply derivable_pt_lim_id|apply derivable_pt_lim_const]. }
    match type of J with derivable_pt_lim ?f 0 ?l => assert (D' : derivable_pt_lim f 0 (exp (0 - 1) * (1 - 0))) end.
    { apply (derive_ext (fun t => exp (t - 1))); auto. intros t. rewrite vscale_eq. cbn. replace (0 + t * 1 - 1) with (t - 1) by ring. ring. }
    assert (U := uniqueness_limite _ _ _ _ J D'). clear - U. rewrite ?vscale_eq in U. cbn in U. rewrite exp_0 in U. assert (exp (0 - 1) < exp 0) by (apply exp_increasing; lra). rewrite exp_0 in *. lra.
Qed.
