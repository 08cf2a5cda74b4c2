(** C81, C82: the probit loss and the data of binary losses; the complementary log-log loss. *)
From Coq Require Import Reals List Arith Lra Lia Bool.
From Verif Require Import M_affine M_buffer Vec Spec SpecConvex M_quad M_loss SpecLoss M_probit SpecNormal SpecProbit P_quad P_normal P_probit1 P_probit2 P_probit3.
Import ListNotations.
Local Open Scope R_scope.

(** ** C81. The normal distribution exists; every theorem holds for any functions cdf and pdf with its defining properties. *)
(** The hypothesis of the theorems below is satisfiable. *)
Theorem C81_normal_exists : exists cdf pdf, is_normal cdf pdf.
Proof. exact normal_exists. Qed.
Print Assumptions C81_normal_exists.
(** The value is coef times the weighted negative binomial log-likelihood, if no linear predictor is beyond 20. *)
Theorem C81_value_partial : forall cdf, forall s t n c cw x, length s = n -> length t = n -> length cw = n -> length x = n -> within 20 x ->
  probit_func cdf s t c cw x = doc_binomial cdf s t n c cw x.
Proof. exact probit_value_doc. Qed.
Print Assumptions C81_value_partial.
(** Beyond -20 it is too small. *)
Theorem C81_value_refuted : forall cdf pdf, is_normal cdf pdf -> probit_func cdf [1] [1] 1 [1] [-21] < doc_binomial cdf [1] [1] 1 1 [1] [-21].
Proof. exact probit_value_wrong. Qed.
Print Assumptions C81_value_refuted.
(** The gradient, if no linear predictor reaches 20. *)
Theorem C81_gradient_partial : forall cdf pdf, is_normal cdf pdf -> forall s t n c cw x, length s = n -> length t = n -> length cw = n -> length x = n -> inside 20 x ->
  is_gradient n (probit_func cdf s t c cw) x (probit_grad cdf pdf s t c cw x).
Proof. exact probit_gradient. Qed.
Print Assumptions C81_gradient_partial.
(** Beyond, the gradient returned is not that of the value returned. *)
Theorem C81_gradient_refuted : forall cdf pdf, is_normal cdf pdf -> ~ is_gradient 1 (probit_func cdf [1] [1] 1 [1]) [-21] (probit_grad cdf pdf [1] [1] 1 [1] [-21]).
Proof. exact probit_gradient_wrong. Qed.
Print Assumptions C81_gradient_refuted.
(** Between -20 and 20 the loss lies above its tangents ... *)
Theorem C81_tangent_partial : forall cdf pdf, is_normal cdf pdf -> forall s t n c cw x y, counts n s t -> length cw = n -> length x = n -> length y = n -> 0 <= c -> nonneg cw -> within 20 x -> within 20 y ->
  probit_func cdf s t c cw x + dot (probit_grad cdf pdf s t c cw x) (vsub y x) <= probit_func cdf s t c cw y.
Proof. exact probit_tangent. Qed.
Print Assumptions C81_tangent_partial.
(** ... and is convex, *)
Theorem C81_convex_partial : forall cdf pdf, is_normal cdf pdf -> forall s t n c cw x y u, counts n s t -> length cw = n -> length x = n -> length y = n -> 0 <= c -> nonneg cw -> within 20 x -> within 20 y -> 0 <= u <= 1 ->
  probit_func cdf s t c cw (between x y u) <= (1 - u) * probit_func cdf s t c cw x + u * probit_func cdf s t c cw y.
Proof. exact probit_convex. Qed.
Print Assumptions C81_convex_partial.
(** but not on the whole line. *)
Theorem C81_convex_refuted : forall cdf pdf, is_normal cdf pdf -> ~ convex_on 1 (probit_func cdf [1] [1] 1 [1]).
Proof. exact probit_not_convex. Qed.
Print Assumptions C81_convex_refuted.
(** The Hessian is the derivative of the gradient when every number of successes is at its expectation (the expected information), *)
Theorem C81_fisher_partial : forall cdf pdf, is_normal cdf pdf -> forall s t n c cw x, length s = n -> length t = n -> length cw = n -> length x = n -> inside 20 x ->
  (forall i, (i < n)%nat -> nth i s 0 = nth i t 0 * cdf (nth i x 0)) -> is_jacobian n (probit_grad cdf pdf s t c cw) x (fun d => vmul (probit_hess cdf pdf t c cw x) d).
Proof. exact probit_fisher. Qed.
Print Assumptions C81_fisher_partial.
(** but not for data. *)
Theorem C81_hessian_refuted : forall cdf pdf, is_normal cdf pdf -> ~ forall a, -20 < a < 20 -> is_jacobian 1 (probit_grad cdf pdf [1] [1] 1 [1]) [a] (fun d => vmul (probit_hess cdf pdf [1] 1 [1] [a]) d).
Proof. exact probit_hessian_wrong. Qed.
Print Assumptions C81_hessian_refuted.
(** The modes of evaluation agree. *)
Theorem C81_modes : forall cdf pdf s t c cw x, probit_value cdf pdf s t c cw x EvFunc = Ok (VFunc (probit_func cdf s t c cw x)) /\ probit_value cdf pdf s t c cw x EvGrad = Ok (VGrad (probit_grad cdf pdf s t c cw x)) /\
  probit_value cdf pdf s t c cw x EvBoth = Ok (VBoth (probit_func cdf s t c cw x) (probit_grad cdf pdf s t c cw x)) /\ probit_value cdf pdf s t c cw x EvOther = Err ValueError.
Proof. exact probit_modes. Qed.
Print Assumptions C81_modes.
(** The offset is not applied. *)
Theorem C81_offset_refuted : forall cdf pdf, is_normal cdf pdf -> exists l, new_probit [] [1] (Some [1]) 1 1 (Some [1]) None None = Ok l /\ pl_offset l = Some [1] /\
  exists v, snd (probit_eval cdf pdf [] l None [0] EvFunc) = Ok (VFunc v) /\ v < doc_binomial cdf [1] [1] 1 1 [1] (vsub [0] [1]).
Proof. exact probit_offset_ignored. Qed.
Print Assumptions C81_offset_refuted.
(** The constructor accepts exactly a nonnegative coefficient, legal data and legal weights; otherwise it raises ValueError. The constant makes the total zero for a saturated model. *)
Theorem C81_accepts : forall h s trials n c off weights,
  let legal := match trials with Some t => counts (length s) s t | None => Forall (fun a => a = 0 \/ a = 1) s end in
  ((exists l, new_probit h s trials n c off None weights = Ok l) <-> 0 <= c /\ legal /\ (forall r, weights = Some r -> legal_weights (length s) (read h r))) /\
  ((forall l, new_probit h s trials n c off None weights <> Ok l) -> new_probit h s trials n c off None weights = Err ValueError) /\
  (forall l, new_probit h s trials n c off None weights = Ok l -> pl_s l = s /\ pl_t l = (match trials with Some t => t | None => ones (length s) end) /\ pl_shape l = n /\ pl_coef l = c /\ pl_cw l = weights /\
    forall x, length x = n -> q_denot n (pl_quad l) x = c * vsum (vzip binomial_term (pl_s l) (pl_t l))).
Proof. exact new_probit_accepts. Qed.
Print Assumptions C81_accepts.
(** After any sequence of evaluations, every array that existed is unchanged and evaluations answer as before. *)
Theorem C81_history : forall cdf pdf ops h l, made_probit h l -> Forall (fun o => length (pop_arg o) = pl_shape l) ops ->
  (forall r, (r < length h)%nat -> read (prun cdf pdf l h ops) r = read h r) /\
  forall x m, length x = pl_shape l -> snd (probit_eval cdf pdf (prun cdf pdf l h ops) l None x m) = probit_value cdf pdf (pl_s l) (pl_t l) (pl_coef l) (weights_of h l) x m /\
    snd (probit_hess_eval cdf pdf (prun cdf pdf l h ops) l None x) = probit_hess cdf pdf (pl_t l) (pl_coef l) (weights_of h l) x.
Proof. exact probit_history. Qed.
Print Assumptions C81_history.
(** Weights given by the caller are overwritten by their product with the weights of the loss. *)
Theorem C81_caller_refuted : forall cdf pdf h l r w x m, pl_cw l = Some w -> (r < length h)%nat -> read (fst (probit_eval cdf pdf h l (Some r) x m)) r = vmul (read h r) (read h w) /\
  read (fst (probit_hess_eval cdf pdf h l (Some r) x)) r = vmul (read h r) (read h w).
Proof. exact probit_caller. Qed.
Print Assumptions C81_caller_refuted.
(** A copy can always be made. It has its own weights; its quadratic has the constant added a second time. *)
Theorem C81_copy_total : forall h l, made_probit h l -> exists h' l', copy_probit h l = (h', Ok l') /\ made_probit h' l' /\ pl_s l' = pl_s l /\ pl_t l' = pl_t l /\ pl_shape l' = pl_shape l /\ pl_coef l' = pl_coef l /\ pl_offset l' = pl_offset l /\
  weights_of h' l' = weights_of h l /\ (length h <= length h')%nat /\ (forall r, (r < length h)%nat -> read h' r = read h r) /\ (forall w, pl_cw l' = Some w -> (length h <= w)%nat) /\ (pl_cw l' = None <-> pl_cw l = None) /\
  (forall n, q_shape n (pl_quad l) -> center_ok n (pl_quad l) -> forall x, length x = n -> q_denot n (pl_quad l') x = q_denot n (pl_quad l) x + pl_coef l * vsum (vzip binomial_term (pl_s l) (pl_t l))).
Proof. exact probit_copy. Qed.
Print Assumptions C81_copy_total.
(** A copy evaluates like the original, whatever is later written into arrays that existed before. *)
Theorem C81_copy : forall cdf pdf h l h' l', made_probit h l -> copy_probit h l = (h', Ok l') ->
  forall h2, (length h' <= length h2)%nat -> (forall r, (length h <= r < length h')%nat -> read h2 r = read h' r) -> forall x m, length x = pl_shape l ->
    snd (probit_eval cdf pdf h2 l' None x m) = snd (probit_eval cdf pdf h l None x m) /\ snd (probit_hess_eval cdf pdf h2 l' None x) = snd (probit_hess_eval cdf pdf h l None x).
Proof. exact probit_copy_value. Qed.
Print Assumptions C81_copy.
(** A subsample gives weight zero to the other cases and leaves the loss as it was. *)
Theorem C81_subsample : forall cdf pdf h l idx, made_probit h l -> Forall (fun i => (i < pl_shape l)%nat) idx ->
  exists h' l', subsample_probit h l idx = (h', Ok l') /\ (forall r, (r < length h)%nat -> read h' r = read h r) /\ forall x m, length x = pl_shape l ->
    snd (probit_eval cdf pdf h' l' None x m) = probit_value cdf pdf (pl_s l) (pl_t l) (pl_coef l) (restrict idx (weights_of h l)) x m /\
    snd (probit_hess_eval cdf pdf h' l' None x) = probit_hess cdf pdf (pl_t l) (pl_coef l) (restrict idx (weights_of h l)) x.
Proof. exact probit_subsample. Qed.
Print Assumptions C81_subsample.
Example C81_case : counts 2 [1; 0] [2; 1] /\ within 20 [3; -20] /\ inside 20 [3; -19] /\ nonneg [1; 5].
Proof. split; [split; [auto|split; [auto|intros [|[|i]] Hi; cbn; try lra; lia]]|]. unfold within, inside, nonneg. split; [repeat constructor; lra|]. split; repeat constructor; lra. Qed.
Example C81_made : exists l, made_probit [[1; 2]] l /\ pl_s l = [1; 0] /\ pl_cw l = Some 0%nat.
Proof.
  destruct (new_probit_accepts [[1; 2]] [1; 0] None 2 1 None (Some 0%nat)) as (A & _ & B). destruct A as [_ A]. destruct A as [l E].
  - split; [lra|]. split; [repeat constructor; lra|]. intros r Hr. injection Hr as <-. cbn. split; [auto|repeat constructor; lra].
  - destruct (B l E) as (B1 & B2 & B3 & B4 & B5 & _). exists l. split; [|auto]. exists None, None, None. rewrite B1, B3, B4, B5. split; [exact E|]. split; [|auto]. intros w Hw. injection Hw as <-. cbn. lia.
Qed.
(** ** C82: assigning to the data of a binary loss *)
(** Without numbers of trials the responses must be zeros and ones. *)
Theorem C82_binary : forall s, (Forall (fun a => a = 0 \/ a = 1) s -> set_data None s None = (s, Some (ones (length s)), Ok tt)) /\
  (~ Forall (fun a => a = 0 \/ a = 1) s -> snd (set_data None s None) = Err ValueError).
Proof. exact set_data_binary. Qed.
Print Assumptions C82_binary.
(** An assignment is accepted exactly if the responses lie between zero and the trials, those given or those the loss already has; the data are then the new ones, and nothing else changes. *)
Theorem C82_assign : forall l s trials, let t := match trials with Some t => t | None => pl_t l end in
  (counts (length s) s t -> assign l s trials = (mk_plike s t (pl_shape l) (pl_coef l) (pl_offset l) (pl_quad l) (pl_cw l), Ok tt)) /\
  (~ counts (length s) s t -> assign l s trials = (mk_plike s (pl_t l) (pl_shape l) (pl_coef l) (pl_offset l) (pl_quad l) (pl_cw l), Err ValueError)).
Proof. exact assign_accepts. Qed.
Print Assumptions C82_assign.
(** After any history of assignments, rejected ones included, an accepted one leaves legal data. *)
Theorem C82_history : forall ops l s trials, snd (assign (arun l ops) s trials) = Ok tt ->
  let l' := arun l (ops ++ [(s, trials)]) in counts (length s) (pl_s l') (pl_t l') /\ pl_s l' = s /\ (forall t, trials = Some t -> pl_t l' = t) /\ (trials = None -> pl_t l' = pl_t (arun l ops)).
Proof. exact history_legal. Qed.
Print Assumptions C82_history.
(** No history of assignments changes anything but the data, and rejected ones never change the trials. *)
Theorem C82_rest : forall ops l, let l' := arun l ops in pl_shape l' = pl_shape l /\ pl_coef l' = pl_coef l /\ pl_offset l' = pl_offset l /\ pl_quad l' = pl_quad l /\ pl_cw l' = pl_cw l /\
  ((forall s t, In (s, Some t) ops -> ~ counts (length s) s t) -> pl_t l' = pl_t l).
Proof. exact history_rest. Qed.
Print Assumptions C82_rest.
(** A rejected assignment leaves the illegal responses in the loss. *)
Theorem C82_rejected_refuted : exists l h s, made_probit h l /\ snd (assign l s None) = Err ValueError /\ pl_s (fst (assign l s None)) = s /\ pl_s l <> s /\
  ~ counts (pl_shape l) (pl_s (fst (assign l s None))) (pl_t (fst (assign l s None))).
Proof. exact rejected_assignment. Qed.
Print Assumptions C82_rejected_refuted.
(** The constant term stays that of the first data, so the same data reached in two ways give different objectives. *)
Theorem C82_constant_refuted : exists l l1 l2, new_probit [] [1] (Some [2]) 1 1 None None None = Ok l /\ assign l [0] None = (l1, Ok tt) /\ new_probit [] [0] (Some [2]) 1 1 None None None = Ok l2 /\
  pl_s l1 = pl_s l2 /\ pl_t l1 = pl_t l2 /\ forall x, length x = 1%nat -> q_denot 1 (pl_quad l1) x = - 2 * ln 2 /\ q_denot 1 (pl_quad l2) x = 0.
Proof. exact stale_constant. Qed.
Print Assumptions C82_constant_refuted.
Example C82_case : forall l, pl_t l = [2; 1] -> snd (assign (arun l [([3; 0] : vec, None : option vec); ([0; 0] : vec, Some ([4; 4] : vec))]) [3; 4] None) = Ok tt.
Proof.
  intros l E. unfold arun. cbn [fold_left fst snd]. rewrite (proj1 (assign_accepts (fst (assign l [3; 0] None)) [0; 0] (Some ([4; 4] : vec)))) by (split; [auto|split; [auto|intros [|[|i]] Hi; cbn; try lra; cbn in Hi; lia]]). cbn [fst].
  rewrite (proj1 (assign_accepts _ [3; 4] None)) by (split; [auto|split; [auto|intros [|[|i]] Hi; cbn; try lra; cbn in Hi; lia]]). auto.
Qed.
(** ** C34, C66 for the complementary log-log loss *)
(** Where the linear predictors are not clipped the loss lies above its tangents. *)
Theorem C34_cloglog_partial : forall s t n c off cw x y, counts n s t -> length cw = n -> length x = n -> length y = n -> 0 <= c -> nonneg cw -> off_fits n off -> within 5 x -> within 5 y ->
  loss_func (Cloglog s t) c off cw x + dot (loss_grad (Cloglog s t) c off cw x) (vsub y x) <= loss_func (Cloglog s t) c off cw y.
Proof. exact cloglog_tangent. Qed.
Print Assumptions C34_cloglog_partial.
(** It is not convex on the whole line. *)
Theorem C34_cloglog_refuted : ~ convex_on 1 (loss_func (Cloglog [1] [1]) 1 None [1]).
Proof. exact cloglog_not_convex. Qed.
Print Assumptions C34_cloglog_refuted.
(** The Hessian of the complementary log-log loss is the expected information: *)
Theorem C66_cloglog_partial : forall s t n c cw x, length s = n -> length t = n -> length cw = n -> length x = n -> inside 5 x ->
  (forall i, (i < n)%nat -> nth i s 0 = nth i t 0 * (1 - exp (- exp (nth i x 0)))) ->
  exists w, loss_hess (Cloglog s t) c cw x = Ok w /\ is_jacobian n (loss_grad (Cloglog s t) c None cw) x (fun d => vmul w d).
Proof. exact cloglog_fisher. Qed.
Print Assumptions C66_cloglog_partial.
(** for data it is not the derivative of the gradient. *)
Theorem C66_cloglog_refuted : exists w, loss_hess (Cloglog [0] [1]) 1 [1] [0] = Ok w /\ ~ is_jacobian 1 (loss_grad (Cloglog [0] [1]) 1 None [1]) [0] (fun d => vmul w d).
Proof. exact cloglog_hessian_wrong. Qed.
Print Assumptions C66_cloglog_refuted.
