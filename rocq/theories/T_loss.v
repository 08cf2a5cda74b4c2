(** C33-C36, C66: smooth losses. *)
From Coq Require Import Reals List Lra Lia Arith Bool.
From Verif Require Import M_affine M_buffer P_buffer Vec Spec M_quad SpecConvex M_loss SpecLoss M_smooth SpecSmooth P_quad P_loss P_loss2 P_loss3 P_loss4 P_loss5 P_loss6.
Import ListNotations.
Local Open Scope R_scope.

(** ** C33 *)
Theorem C33_gradient_partial : forall k n c off cw x, fits k n -> off_fits n off -> length cw = n -> length x = n -> regular k (predictor k off x) ->
  is_gradient n (loss_func k c off cw) x (loss_grad k c off cw x).
Proof. exact loss_gradient. Qed.
Print Assumptions C33_gradient_partial.
Theorem C33_value : forall k n c off cw x, fits k n -> off_fits n off -> length cw = n -> length x = n -> Forall (exact_case k) (predictor k off x) ->
  loss_func k c off cw x = doc_loss k n c cw (predictor k off x).
Proof. exact loss_value. Qed.
Print Assumptions C33_value.
(** The three modes of smooth_objective report the same value and gradient; any other mode raises. *)
Theorem C33_modes : forall k c off cw x, exists v g, smooth_value k c off cw x EvFunc = Ok (VFunc v) /\ smooth_value k c off cw x EvGrad = Ok (VGrad g) /\ smooth_value k c off cw x EvBoth = Ok (VBoth v g) /\
  smooth_value k c off cw x EvOther = Err ValueError /\ v = loss_func k c off cw x /\ g = loss_grad k c off cw x.
Proof. exact value_modes. Qed.
Print Assumptions C33_modes.
(** beyond 100 the logistic loss is within exp(-100) per trial of the documented one *)
Theorem C33_logistic_overflow : forall s t n c off cw x, fits (Logistic s t) n -> off_fits n off -> length cw = n -> length x = n -> 0 <= c -> nonneg cw -> nonneg t ->
  loss_func (Logistic s t) c off cw x <= doc_loss (Logistic s t) n c cw (minus x off) <= loss_func (Logistic s t) c off cw x + c * (exp (-100) * dot cw t).
Proof. exact logistic_overflow. Qed.
Print Assumptions C33_logistic_overflow.
(** quadratic_loss with no Q or a symmetric Q *)
Theorem C33_quadratic_partial : forall n Q c off x, (match Q with Some Q => symmetric_map n Q | None => True end) -> off_fits n off -> length x = n ->
  is_gradient n (quad_func Q c off) x (quad_grad Q c off x).
Proof. exact quad_gradient. Qed.
Print Assumptions C33_quadratic_partial.
Theorem C33_quadratic_refuted : let Q := fun x : vec => [nth 1 x 0; 0] in ~ is_gradient 2 (quad_func (Some Q) 1 None) [1; 0] (quad_grad (Some Q) 1 None [1; 0]).
Proof. exact quad_asymmetric. Qed.
Print Assumptions C33_quadratic_refuted.
Theorem C33_huber_svm_refuted : forall eps, 0 < eps -> eps <> 1 -> exists a, ~ is_gradient 1 (loss_func (HuberSvm [1] eps) 1 None [1]) [a] (loss_grad (HuberSvm [1] eps) 1 None [1] [a]).
Proof. exact svm_wrong. Qed.
Print Assumptions C33_huber_svm_refuted.
Theorem C33_cloglog_refuted : ~ is_gradient 1 (loss_func (Cloglog [0] [1]) 1 None [1]) [6] (loss_grad (Cloglog [0] [1]) 1 None [1] [6]).
Proof. exact cloglog_wrong. Qed.
Print Assumptions C33_cloglog_refuted.
Theorem C33_cloglog_offset_refuted : loss_func (Cloglog [0] [1]) 1 (Some [1]) [1] [0] <> doc_loss (Cloglog [0] [1]) 1 1 [1] (minus [0] (Some [1])).
Proof. exact cloglog_offset. Qed.
Print Assumptions C33_cloglog_offset_refuted.
(** in exact arithmetic the logistic loss jumps by ln(1+exp(-100)) at the threshold *)
Theorem C33_logistic_threshold_refuted : forall g, ~ is_gradient 1 (loss_func (Logistic [0] [1]) 1 None [1]) [100] g.
Proof. exact logistic_jump. Qed.
Print Assumptions C33_logistic_threshold_refuted.
Example C33_case : fits (Logistic [1; 0] [2; 3]) 2 /\ regular (Logistic [1; 0] [2; 3]) (predictor (Logistic [1; 0] [2; 3]) (Some [1; 0]) [1; 200]) /\
  nth 0 (loss_grad (Logistic [1; 0] [2; 3]) 2 (Some [1; 0]) [1; 1] [1; 200]) 0 = 0 /\ nth 1 (loss_grad (Logistic [1; 0] [2; 3]) 2 (Some [1; 0]) [1; 1] [1; 200]) 0 = 6.
Proof.
  split; [cbn; auto|]. split; [cbn; repeat constructor; cbn; lra|].
  destruct (loss_grad_cases (Logistic [1; 0] [2; 3]) 2 2 (Some [1; 0]) [1; 1] [1; 200] (conj eq_refl eq_refl) eq_refl eq_refl eq_refl) as [_ G]. rewrite !G by lia. cbn -[ratio1]. unfold ratio1.
  replace (1 - 1) with 0 by ring. rewrite exp_0. destruct (Rle_dec 0 100); [|lra]. destruct (Rle_dec (200 - 0) 100); [lra|]. split; lra.
Qed.

(** ** C34 *)
Theorem C34_tangent_partial : forall k n c off cw x y, fits k n -> off_fits n off -> length cw = n -> length x = n -> length y = n -> 0 <= c -> nonneg cw -> convex_family k ->
  Forall (exact_case k) (predictor k off y) -> loss_func k c off cw x + dot (loss_grad k c off cw x) (vsub y x) <= loss_func k c off cw y.
Proof. exact loss_tangent. Qed.
Print Assumptions C34_tangent_partial.
Theorem C34_convex : forall k n c off cw, fits k n -> off_fits n off -> length cw = n -> 0 <= c -> nonneg cw -> convex_family k -> (match k with Logistic _ _ => False | _ => True end) ->
  convex_on n (loss_func k c off cw).
Proof. exact loss_convex. Qed.
Print Assumptions C34_convex.
Theorem C34_logistic : forall s t n c off cw x y, fits (Logistic s t) n -> off_fits n off -> length cw = n -> length x = n -> length y = n -> 0 <= c -> nonneg cw -> nonneg t ->
  loss_func (Logistic s t) c off cw x + dot (loss_grad (Logistic s t) c off cw x) (vsub y x) <= loss_func (Logistic s t) c off cw y + c * (exp (-100) * dot cw t).
Proof. exact logistic_tangent. Qed.
Print Assumptions C34_logistic.
Example C34_case : convex_family (Huber [3; -1] 2) /\ fits (Huber [3; -1] 2) 2 /\ nonneg [1; 5] /\ convex_family (Logistic [1] [2]) /\ Forall (exact_case (Logistic [1] [2])) [7].
Proof. cbn. split; [auto|]. split; [split; [auto|lra]|]. split; [repeat constructor; lra|]. split; repeat constructor; cbn; lra. Qed.

(** ** C35 *)
Theorem C35_history_partial : forall ops g h, l_cw (g_loss g) = None -> (forall r, read (grun g h ops) r = read h r) /\ forall b m, snd (glm_eval (grun g h ops) g b m) = snd (glm_eval h g b m).
Proof. intros ops g h E. rewrite glm_history by auto. auto. Qed.
Print Assumptions C35_history_partial.
Theorem C35_loss_history : forall ops h l, made h l -> Forall (fun o => length (fst o) = l_shape l) ops -> (forall r, (r < length h)%nat -> read (lrun l h ops) r = read h r) /\
  forall x m, length x = l_shape l -> snd (loss_eval (lrun l h ops) l None x m) = smooth_value (l_fam l) (l_coef l) (l_offset l) (own_weights h l) x m.
Proof. exact loss_history. Qed.
Print Assumptions C35_loss_history.
(** a glm whose saturated loss has weights of its own: each evaluation multiplies the case weights of the glm once more *)
Theorem C35_weights_refuted : forall ops g h w n, l_cw (g_loss g) = Some w -> w <> g_cw g -> (g_cw g < length h)%nat -> length (read h w) = n -> length (read h (g_cw g)) = n ->
  forall i, (i < n)%nat -> nth i (read (grun g h ops) (g_cw g)) 0 = nth i (read h (g_cw g)) 0 * nth i (read h w) 0 ^ length ops.
Proof. exact glm_weights_decay. Qed.
Print Assumptions C35_weights_refuted.
Example C35_case : let l := mk_loss (Gaussian [0]) 1 1 None (mk_iq 0 (FScal 0) (FScal 0) 0) (Some 0%nat) in
  let g := mk_glm l (fun x => x) (fun x => x) 1 None (mk_iq 0 (FScal 0) (FScal 0) 0) 1%nat in let h := [[2]; [1]] in
  made h l /\ nth 0 (read (grun g h [GEval [1] EvFunc; GEval [1] EvGrad; GHess [1] [1]]) 1%nat) 0 = 8 /\ snd (glm_eval h g [1] EvFunc) = Ok (VFunc 1) /\
  snd (glm_eval (grun g h [GEval [1] EvFunc]) g [1] EvFunc) = Ok (VFunc 2).
Proof.
  cbv zeta. split.
  - exists None, None. cbn. split; [|split; [|split; auto]].
    + unfold new_loss. cbn. destruct (Rlt_dec 1 0); [lra|]. destruct (Rlt_dec 2 0); [lra|]. reflexivity.
    + intros w Hw. injection Hw as <-. lia.
  - split; [cbn; lra|]. unfold glm_eval, loss_eval, grun. cbn -[scale]. rewrite !scale_eq. split; do 2 f_equal; lra.
Qed.

(** ** C36 *)
Theorem C36_copy_partial : forall h l h' l', made h l -> copies_weights (l_fam l) = true \/ l_cw l = None -> copy_loss h l = (h', Ok l') ->
  (forall x m, length x = l_shape l -> snd (loss_eval h' l' None x m) = snd (loss_eval h l None x m)) /\
  (forall h2, (length h' <= length h2)%nat -> (forall r, (length h <= r < length h')%nat -> read h2 r = read h' r) -> forall x m, length x = l_shape l -> snd (loss_eval h2 l' None x m) = snd (loss_eval h l None x m)).
Proof. exact copy_value. Qed.
Print Assumptions C36_copy_partial.
Theorem C36_copy_total : forall h l, made h l -> copies_weights (l_fam l) = true \/ l_cw l = None -> exists h' l', copy_loss h l = (h', Ok l') /\ (adds_const (l_fam l) = false -> l_quad l' = l_quad l).
Proof. intros h l M C. destruct (copy_works h l M C) as (h' & l' & E & _ & _ & _ & _ & _ & _ & _ & Q). exists h', l'. split; [exact E|]. intros A. rewrite A in Q. cbn in Q. apply Ok_inj in Q. auto. Qed.
Print Assumptions C36_copy_total.
Theorem C36_subsample_partial : forall h l idx, made h l -> copies_weights (l_fam l) = true \/ l_cw l = None -> Forall (fun i => (i < l_shape l)%nat) idx ->
  exists h' l', subsample_loss h l idx = (h', Ok l') /\ (forall r, (r < length h)%nat -> read h' r = read h r) /\
    forall x m, length x = l_shape l -> snd (loss_eval h' l' None x m) = smooth_value (l_fam l) (l_coef l) (l_offset l) (restrict idx (own_weights h l)) x m.
Proof. exact subsample_value. Qed.
Print Assumptions C36_subsample_partial.
Theorem C36_glm_copy_partial : forall h g, glm_ok h g -> exists h' g', copy_glm h g = (h', Ok g') /\ (length h <= g_cw g' < length h')%nat /\ glm_ok h' g' /\ (forall r, (r < length h)%nat -> read h' r = read h r) /\
  (forall b m, snd (glm_eval h' g' b m) = snd (glm_eval h g b m)).
Proof. exact glm_copy. Qed.
Print Assumptions C36_glm_copy_partial.
Theorem C36_glm_subsample_partial : forall h g idx, glm_ok h g -> Forall (fun i => (i < l_shape (g_loss g))%nat) idx -> exists h' g', subsample_glm h g idx = (h', Ok g') /\ (forall r, (r < length h)%nat -> read h' r = read h r) /\
  (forall b m, snd (glm_eval h' g' b m) = snd (glm_eval (write h (g_cw g) (restrict idx (read h (g_cw g)))) g b m)).
Proof. exact glm_subsample. Qed.
Print Assumptions C36_glm_subsample_partial.
Theorem C36_huber_weights_refuted : let h := [[2]] in let l := mk_loss (Huber [0] 1) 1 1 None (mk_iq 0 (FScal 0) (FScal 0) 0) (Some 0%nat) in made h l /\
  exists h' l', copy_loss h l = (h', Ok l') /\ snd (loss_eval h l None [1] EvFunc) = Ok (VFunc 1) /\ snd (loss_eval h' l' None [1] EvFunc) = Ok (VFunc (/ 2)).
Proof. exact huber_copy_loses_weights. Qed.
Print Assumptions C36_huber_weights_refuted.
(** the deviance constant is added to the quadratic once more by each copy *)
Theorem C36_constant_refuted : let l := mk_loss (Logistic [1] [2]) 1 1 None (mk_iq 0 (FScal 0) (FScal 0) 0) None in
  exists h' l', copy_loss [] l = (h', Ok l') /\ (forall x, length x = 1%nat -> q_denot 1 (l_quad l) x = 0 /\ q_denot 1 (l_quad l') x = - 2 * ln 2).
Proof. exact logistic_copy_moves_constant. Qed.
Print Assumptions C36_constant_refuted.
Example C36_case : let l := mk_loss (Poisson [2; 0; 1]) 3 1 None (mk_iq 0 (FScal 0) (FScal 0) 0) None in fits (l_fam l) 3 /\ restrict [0; 2]%nat (own_weights [] l) = [1; 0; 1].
Proof. cbv zeta. split; cbn; auto. Qed.

(** ** C66 *)
Theorem C66_hessian_partial : forall k n c cw x, fits k n -> length cw = n -> length x = n -> twice_smooth k -> Forall (hess_regular k) x ->
  exists w, loss_hess k c cw x = Ok w /\ length w = n /\ is_jacobian n (loss_grad k c None cw) x (fun d => vmul w d).
Proof. exact loss_hessian. Qed.
Print Assumptions C66_hessian_partial.
Theorem C66_offset_refuted : exists w, loss_hess (Poisson [0]) 1 [1] [0] = Ok w /\ ~ is_jacobian 1 (loss_grad (Poisson [0]) 1 (Some [1]) [1]) [0] (fun d => vmul w d).
Proof. exact hessian_offset. Qed.
Print Assumptions C66_offset_refuted.
Theorem C66_overflow_refuted : let k := Logistic [0; 0; 0] [1; 1; 1] in exists w, loss_hess k 1 [1; 1; 1] [101; 0; 0] = Ok w /\ ~ is_jacobian 3 (loss_grad k 1 None [1; 1; 1]) [101; 0; 0] (fun d => vmul w d).
Proof. exact hessian_overflow. Qed.
Print Assumptions C66_overflow_refuted.
(** The Hessian of a generalized linear model built without offset, on a loss without offset or weights of its own *)
Theorem C66_glm_partial : forall h l T n m q weights h1 g beta, new_glm h l T None q weights = (h1, Ok g) -> good_design T n m -> fits (l_fam l) m -> l_shape l = m -> l_cw l = None -> l_offset l = None ->
  twice_smooth (l_fam l) -> length beta = n -> Forall (hess_regular (l_fam l)) (M_affine.t_lin T beta) ->
  exists G H, (forall b, length b = n -> snd (glm_eval h1 g b EvGrad) = Ok (VGrad (G b))) /\ (forall d, length d = n -> snd (glm_hess h1 g beta d) = Ok (H d)) /\ is_jacobian n G beta H.
Proof. exact glm_hessian. Qed.
Print Assumptions C66_glm_partial.
Theorem C66_glm_offset_refuted : let l := mk_loss (Poisson [0]) 1 1 None (mk_iq 0 (FScal 0) (FScal 0) 0) None in let g := mk_glm l (fun x => x) (fun x => x) 1 (Some [1]) (mk_iq 0 (FScal 0) (FScal 0) 0) 0%nat in
  exists G H, (forall b, snd (glm_eval [[1]] g b EvGrad) = Ok (VGrad (G b))) /\ (forall d, snd (glm_hess [[1]] g [0] d) = Ok (H d)) /\ ~ is_jacobian 1 G [0] H.
Proof. exact glm_hess_offset. Qed.
Print Assumptions C66_glm_offset_refuted.
Example C66_case : twice_smooth (Logistic [1; 0] [1; 1]) /\ fits (Logistic [1; 0] [1; 1]) 2 /\ Forall (hess_regular (Logistic [1; 0] [1; 1])) [3; -2].
Proof. cbn. split; auto. split; auto. repeat constructor; cbn; lra. Qed.

(** ** C68 *)
Theorem C68_accepts : forall h k n c off weights, fits k (cases k) ->
  ((exists l, new_loss h k n c off None weights = Ok l) <-> 0 <= c /\ legal_data k /\ (forall r, weights = Some r -> legal_weights (cases k) (read h r))) /\
  ((forall l, new_loss h k n c off None weights <> Ok l) -> new_loss h k n c off None weights = Err ValueError).
Proof. exact new_loss_accepts. Qed.
Print Assumptions C68_accepts.
Example C68_case : legal_data (Logistic [1; 2] [3; 2]) /\ ~ legal_data (Logistic [1; 3] [3; 2]) /\ fits (Logistic [1; 3] [3; 2]) (cases (Logistic [1; 3] [3; 2])).
Proof. split; [|split; [|cbn; auto]]. - repeat constructor; lra. - intros H. inversion H as [|? ? ? ? A B]; subst. inversion B; subst. lra. Qed.
