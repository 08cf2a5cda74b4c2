(** C73: multinomial losses. C74: stacked losses and multiresponse models. *)
From Coq Require Import Reals List Lra Lia Arith Bool ZArith.
From Verif Require Import M_affine P_affine M_buffer P_buffer M_loss SpecLoss P_loss P_loss2 P_loss4 P_loss5 P_loss6 Vec Spec SpecBlock SpecConvex M_quad P_quad P_calc P_sep P_cv P_block M_mglm SpecMglm P_mglm P_mglm2 P_mglm3 P_mglm4 P_mglm5 P_mglm6 P_mglm7 P_mglm8 P_mglm9.
Import ListNotations.
Local Open Scope R_scope.

(** * C73 *)
(** The value is coef times the weighted negative log likelihood of the softmax probabilities, as long as no linear predictor is beyond 50. *)
Theorem C73_value_partial : forall (base : bool) n q counts c off cw x, multi_fits base n q counts off cw -> length x = (n * q)%nat -> within 50 (minus x off) ->
  multi_func base n q counts c off cw x = c * neg_log_lik counts cw (all_predictors base (rows n q (minus x off))).
Proof. exact multi_value_eq. Qed.
Print Assumptions C73_value_partial.
Example C73_instance : multi_fits false 2 3 [[1; 0; 2]; [0; 3; 1]] (Some [0; 1; 0; 0; 0; 2]) [1; 2] /\ multi_fits true 1 2 [[1; 0; 2]] None [1] /\ inside 50 (minus [0; 1; 2; 0; 0; 0] (Some [0; 1; 0; 0; 0; 2])) /\ counts_ok [[1; 0; 2]; [0; 3; 1]] /\ nonneg [1; 2].
Proof. unfold multi_fits, inside, counts_ok, nonneg, minus, vsub. cbn [vzip]. repeat split; auto; try (right; lia); repeat (apply Forall_cons || apply Forall_nil); cbn; auto; try lra; repeat (apply Forall_cons || apply Forall_nil); lra. Qed.
(** ... and the array returned as gradient is the gradient, ... *)
Theorem C73_gradient_partial : forall base n q counts c off cw x, multi_fits base n q counts off cw -> length x = (n * q)%nat -> inside 50 (minus x off) ->
  is_gradient (n * q) (multi_func base n q counts c off cw) x (multi_grad base n q counts c off cw x).
Proof. exact multi_gradient. Qed.
Print Assumptions C73_gradient_partial.
(** ... which lies below the function: it is convex there. *)
Theorem C73_tangent_partial : forall base n q counts c off cw x y, multi_fits base n q counts off cw -> length x = (n * q)%nat -> length y = (n * q)%nat -> within 50 (minus x off) -> within 50 (minus y off) ->
  0 <= c -> nonneg cw -> counts_ok counts ->
  multi_func base n q counts c off cw x + dot (multi_grad base n q counts c off cw x) (vsub y x) <= multi_func base n q counts c off cw y.
Proof. exact multi_tangent. Qed.
Print Assumptions C73_tangent_partial.
(** Beyond 50 the value is constant in that predictor: the array returned is not the gradient ... *)
Theorem C73_clip_refuted : ~ is_gradient 2 (multi_func false 1 2 [[0; 1]] 1 None [1]) [60; 0] (multi_grad false 1 2 [[0; 1]] 1 None [1] [60; 0]).
Proof. exact multi_clip_wrong. Qed.
Print Assumptions C73_clip_refuted.
Theorem C73_clip_gradient : forall base n q counts c off cw x i j g, multi_fits base n q counts off cw -> length x = (n * q)%nat -> (i < n)%nat -> (j < q)%nat -> 50 < Rabs (entry q (minus x off) i j) ->
  is_gradient (n * q) (multi_func base n q counts c off cw) x g -> entry q g i j = 0.
Proof. exact multi_clip_gradient. Qed.
Print Assumptions C73_clip_gradient.
(** ... and the function is not convex. *)
Theorem C73_convex_refuted : ~ convex_on 2 (multi_func false 1 2 [[0; 1]] 1 None [1]).
Proof. exact multi_not_convex. Qed.
Print Assumptions C73_convex_refuted.
(** In the overparametrized class a constant added to a row of predictors changes nothing, and rows of the gradient add up to zero. *)
Theorem C73_shift : forall n q counts c cw x y a, multi_fits false n q counts None cw -> length x = (n * q)%nat -> length y = (n * q)%nat -> within 50 x -> within 50 y ->
  (forall i j, (i < n)%nat -> (j < q)%nat -> entry q y i j = nth i a 0 + entry q x i j) ->
  multi_func false n q counts c None cw y = multi_func false n q counts c None cw x.
Proof. exact multi_shift. Qed.
Print Assumptions C73_shift.
Theorem C73_rows : forall n q counts c off cw x i, multi_fits false n q counts off cw -> length x = (n * q)%nat -> (i < n)%nat ->
  vsum (nth i (rows n q (multi_grad false n q counts c off cw x)) []) = 0.
Proof. exact multi_grad_sum. Qed.
Print Assumptions C73_rows.
(** With the constant that the constructor adds, the value with unit weights is non-negative, and zero exactly when the fitted probabilities are the observed proportions. *)
Theorem C73_deviance : forall base n q counts c off x, multi_fits base n q counts off (ones n) -> length x = (n * q)%nat -> within 50 (minus x off) -> counts_ok counts -> 0 < c ->
  0 <= multi_func base n q counts c off (ones n) x + multi_const counts c /\
  (multi_func base n q counts c off (ones n) x + multi_const counts c = 0 <->
   forall i, (i < n)%nat -> vsum (nth i counts []) <> 0 -> proportions (nth i counts []) = softmax (nth i (all_predictors base (rows n q (minus x off))) [])).
Proof. exact multi_deviance. Qed.
Print Assumptions C73_deviance.
(** With two categories, the baseline class is the logistic loss. *)
Theorem C73_two_categories : forall n counts c off cw x, multi_fits true n 1 counts off cw -> length x = n -> within 50 (minus x off) ->
  multi_func true n 1 counts c off cw x = loss_func (Logistic (map (fun ct => nth 0 ct 0) counts) (map vsum counts)) c off cw x.
Proof. exact two_categories. Qed.
Print Assumptions C73_two_categories.
(** The constructor refuses bad arguments, always with ValueError. *)
Theorem C73_constructor : forall h (base : bool) n q (counts : list vec) c off weights J, (0 < length counts)%nat -> Forall (fun ct : vec => length ct = J) counts ->
  ((exists l, new_multi h base n q counts c off None weights = Ok l) <-> 0 <= c /\ counts_ok counts /\
     (base = true -> J = S q /\ Forall (Forall (fun a => exists z : Z, Rabs (a - IZR z) <= / 10 ^ 8 + / 10 ^ 5 * Rabs a)) counts) /\ (forall r, weights = Some r -> legal_weights n (read h r))) /\
  ((forall l, new_multi h base n q counts c off None weights <> Ok l) -> new_multi h base n q counts c off None weights = Err ValueError).
Proof. exact new_multi_accepts. Qed.
Print Assumptions C73_constructor.
(** Weights given to the constructor are ignored, ... *)
Theorem C73_weights_refuted : exists h l, new_multi h false 1 2 [[1; 1]] 1 None None (Some 0%nat) = Ok l /\ m_cw l = Some 0%nat /\ read h 0%nat = [0] /\
  multi_eval h l None [0; 0] EvFunc = Ok (VFunc (2 * ln 2)) /\ neg_log_lik [[1; 1]] [0] [[0; 0]] = 0.
Proof. exact multi_ignores. Qed.
Print Assumptions C73_weights_refuted.
(** ... weights passed in make the value plus its constant negative, ... *)
Theorem C73_weighted_refuted : exists cw, nonneg cw /\ multi_fits false 1 2 [[1; 1]] None cw /\ multi_func false 1 2 [[1; 1]] 1 None cw [0; 0] + multi_const [[1; 1]] 1 < 0.
Proof. exact multi_weighted_deviance. Qed.
Print Assumptions C73_weighted_refuted.
(** ... and a subsample has the same values as the original, while it overwrites the weights of the original. *)
Theorem C73_subsample_refuted : forall h l idx, Forall (fun i => (i < m_rows l)%nat) idx -> exists h' l', subsample_multi h l idx = (h', Ok l') /\
  (forall x m, multi_eval h' l' None x m = multi_eval h l None x m) /\
  (forall w, m_cw l = Some w -> (w < length h)%nat -> l' = l /\ read h' w = restrict idx (read h w)).
Proof. exact multi_subsample. Qed.
Print Assumptions C73_subsample_refuted.

(** * C74 *)
(** A stack of losses without weights of their own: values and gradients are those of the losses, column by column, with the product of the weights passed in and the weights of the stack. Nothing else is written, except the array passed in. *)
Theorem C74_stack : forall h s n arg x m, stack_ok h s n -> arg_ok h s n arg -> length x = (n * s_cols s)%nat -> is_eval m ->
  let cw := vmul (arg_weights h n arg) (stack_weights h s n) in
  exists h' v, stacked_eval h s arg x m = (h', Ok v) /\
    (forall r, (r < length h)%nat -> r <> s_buf s -> arg <> Some r -> read h' r = read h r) /\ (length h <= length h')%nat /\ stack_ok h' s n /\
    (forall r, arg = Some r -> read h' r = cw) /\
    (forall f, v = RFunc f \/ (exists g, v = RBoth f g) -> f = stack_value n (s_losses s) (s_coef s) cw (minus x (s_offset s))) /\
    (forall g, v = RGrad g \/ (exists f, v = RBoth f g) -> (g < length h')%nat /\ is_stack_grad n (s_losses s) (s_coef s) cw (minus x (s_offset s)) (read h' g) /\
       (s_coef s = 1 -> g = s_buf s) /\ (s_coef s <> 1 -> (length h <= g)%nat /\ arg <> Some g)) /\
    (m = EvFunc <-> exists f, v = RFunc f) /\ (m = EvGrad <-> exists g, v = RGrad g) /\ (m = EvBoth <-> exists f g, v = RBoth f g).
Proof. exact stacked_works. Qed.
Print Assumptions C74_stack.
Definition g0 (y : vec) (w : option ref) : loss := mk_loss (Gaussian y) (length y) 1 None (mk_iq 0 (FScal 0) (FScal 0) 0) w.
Definition two : stacked := mk_stacked [g0 [1; 2] None; mk_loss (Poisson [1; 3]) 2 1 None (mk_iq 0 (FScal 0) (FScal 0) 0) None] 2 None (mk_iq 0 (FScal 0) (FScal 0) 0) (Some 0%nat) 1%nat.
Example C74_instance : let h := [[1; 3]; [0; 0; 0; 0]; [1; 1]] in stack_ok h two 2 /\ arg_ok h two 2 (Some 2%nat) /\ stack_sane h two 2 /\ stack_regular 2 (s_losses two) [1; 2; 3; 4].
Proof.
  intros h. split; [|split; [|split]].
  - unfold stack_ok, two, s_cols. cbn [s_losses s_cw s_buf s_offset length]. split; [discriminate|]. split; [repeat constructor|]. split; [repeat constructor; cbn; auto|]. split; [exact I|]. split; [cbn; lia|]. split; [reflexivity|]. intros w X. injection X as <-. cbn. repeat split; auto; lia.
  - intros r X. injection X as <-. cbn. repeat split; auto; lia.
  - unfold stack_sane, two, stack_weights. cbn. split; [lra|]. split; auto. repeat constructor; lra.
  - intros [|[|[|j]]] l X; try discriminate; injection X as <-; repeat constructor.
Qed.
(** That array is the gradient of the sum. *)
Theorem C74_stack_gradient : forall n losses c cw off x g, losses <> [] -> Forall (free_loss n) losses -> length cw = n -> off_fits (n * length losses) off -> length x = (n * length losses)%nat -> stack_regular n losses (minus x off) ->
  is_stack_grad n losses c cw (minus x off) g -> is_gradient (n * length losses) (fun z => stack_value n losses c cw (minus z off)) x g.
Proof. exact stack_gradient. Qed.
Print Assumptions C74_stack_gradient.
(** Evaluating a stack any number of times without passing weights changes only its gradient buffer. *)
Theorem C74_history : forall ops h s n, stack_ok h s n -> Forall (fun o => length (fst o) = (n * s_cols s)%nat) ops ->
  stack_ok (srun s h ops) s n /\ (forall r, (r < length h)%nat -> r <> s_buf s -> read (srun s h ops) r = read h r) /\ stack_weights (srun s h ops) s n = stack_weights h s n.
Proof. exact stack_history. Qed.
Print Assumptions C74_history.
(** With coef 1 the array returned by a stack is its buffer: the next evaluation overwrites it. With another coef it stays. *)
Theorem C74_returned_refuted : forall h s n x y h1 g, stack_ok h s n -> length x = (n * s_cols s)%nat -> length y = (n * s_cols s)%nat -> stacked_eval h s None x EvGrad = (h1, Ok (RGrad g)) ->
  is_stack_grad n (s_losses s) (s_coef s) (stack_weights h s n) (minus x (s_offset s)) (read h1 g) /\
  forall h2 g2, stacked_eval h1 s None y EvGrad = (h2, Ok (RGrad g2)) ->
    (s_coef s = 1 -> is_stack_grad n (s_losses s) (s_coef s) (stack_weights h s n) (minus y (s_offset s)) (read h2 g)) /\ (s_coef s <> 1 -> read h2 g = read h1 g).
Proof. exact stack_returned. Qed.
Print Assumptions C74_returned_refuted.
(** Constructor, copy and subsample of a stack. *)
Theorem C74_new : forall h losses c off qd weights n, Forall (fun l => l_shape l = n) losses -> Forall (free_loss n) losses -> losses <> [] -> off_fits (n * length losses) off ->
  0 <= c -> (forall r, weights = Some r -> (r < length h)%nat /\ legal_weights n (read h r)) ->
  exists s, new_stacked h losses c off qd weights = (h ++ [zeros (n * length losses)], Ok s) /\ stack_ok (h ++ [zeros (n * length losses)]) s n /\ s_losses s = losses /\ s_coef s = c /\ s_cw s = weights /\ s_buf s = length h /\ s_offset s = match off with Some v => if all_zero v then None else Some v | None => None end /\
    (forall x, length x = (n * length losses)%nat -> minus x (s_offset s) = minus x off).
Proof. exact new_stacked_ok. Qed.
Print Assumptions C74_new.
Theorem C74_copy : forall h s n, stack_ok h s n -> stack_sane h s n -> exists h' s', copy_stacked h s = (h', Ok s') /\ (length h <= length h')%nat /\ (forall r, (r < length h)%nat -> read h' r = read h r) /\
  stack_ok h' s' n /\ s_losses s' = s_losses s /\ s_coef s' = s_coef s /\ s_offset s' = s_offset s /\ stack_weights h' s' n = stack_weights h s n /\ (length h <= s_buf s')%nat /\ (forall w, s_cw s' = Some w -> (length h <= w)%nat) /\ (s_cw s = None -> s_cw s' = None).
Proof. exact copy_stacked_works. Qed.
Print Assumptions C74_copy.
Theorem C74_subsample : forall h s n idx, stack_ok h s n -> stack_sane h s n -> Forall (fun i => (i < n)%nat) idx -> exists h' s', subsample_stacked h s idx = (h', Ok s') /\ (forall r, (r < length h)%nat -> read h' r = read h r) /\
  stack_ok h' s' n /\ s_losses s' = s_losses s /\ s_coef s' = s_coef s /\ s_offset s' = s_offset s /\ stack_weights h' s' n = restrict idx (stack_weights h s n).
Proof. exact subsample_stacked_works. Qed.
Print Assumptions C74_subsample.
(** When the losses have weights of their own, loss j is evaluated with the product of the weights of losses 0 to j, ... *)
Theorem C74_compounds : forall h s n W x, s_losses s <> [] -> Forall (fun l => l_shape l = n) (s_losses s) -> s_cw s = None -> off_fits (n * s_cols s) (s_offset s) -> length x = (n * s_cols s)%nat ->
  (forall l, In l (s_losses s) -> fits (l_fam l) n /\ off_fits n (l_offset l) /\ length (W l) = n /\ (forall w, l_cw l = Some w -> (w < length h)%nat /\ read h w = W l) /\ (l_cw l = None -> W l = ones n)) ->
  exists h', stacked_eval h s None x EvFunc = (h', Ok (RFunc (s_coef s * compound n (s_cols s) W 0 (s_losses s) (ones n) (minus x (s_offset s))))).
Proof. exact stack_compounds. Qed.
Print Assumptions C74_compounds.
(** ... which is not the sum of the losses. *)
Theorem C74_own_weights_refuted : let h := [[2]] in let losses := [g0 [1] (Some 0%nat); g0 [1] (Some 0%nat)] in let s := mk_stacked losses 1 None (mk_iq 0 (FScal 0) (FScal 0) 0) None 1%nat in
  (exists h', stacked_eval (h ++ [zeros 2]) s None [0; 0] EvFunc = (h', Ok (RFunc 3))) /\ stack_own 1 losses 1 (fun _ => [2]) [0; 0] = 2.
Proof.
  intros h losses s. split.
  - destruct (stack_compounds (h ++ [zeros 2]) s 1 (fun _ => [2]) [0; 0]) as [h' E]; try reflexivity; try discriminate; [apply Forall_cons; [reflexivity|apply Forall_cons; [reflexivity|apply Forall_nil]]| |].
    + intros l [<-|[<-|[]]]; cbn; (split; [auto|split; [auto|split; [auto|split; [intros w X; injection X as <-; split; [lia|reflexivity]|discriminate]]]]).
    + exists h'. rewrite E. f_equal. f_equal. f_equal. unfold s, losses. cbn [s_coef s_losses s_offset s_cols length compound g0 l_fam l_coef l_offset minus]. unfold loss_func, scale, sub_offset, col, entry, s_cols. cbn. destruct (Req_EM_T 1 1); [|lra]. unfold vsum. cbn. lra.
  - unfold stack_own, losses. cbn [length seq combine map fst snd g0 l_fam l_coef l_offset]. unfold loss_func, scale, sub_offset, col, entry. cbn. destruct (Req_EM_T 1 1); [|lra]. unfold vsum. cbn. lra.
Qed.
Print Assumptions C74_own_weights_refuted.
(** Losses one after the other: value, gradient, what is written. Neither the weights passed in nor those of the object enter: only those of the losses. *)
Theorem C74_chain : forall h s arg x m, chain_ok h s -> arg_free h s arg -> length x = total_size (s_losses s) -> is_eval m ->
  exists h' v, chain_eval h s arg x m = (h', Ok v) /\ chain_ok h' s /\ (length h <= length h')%nat /\
    (forall r, (r < length h)%nat -> r <> s_buf s -> arg <> Some r -> read h' r = read h r) /\ (forall l, In l (s_losses s) -> own_weights h' l = own_weights h l) /\
    (forall f, v = RFunc f \/ (exists g, v = RBoth f g) -> f = chain_value (s_losses s) (s_coef s) (own_weights h) (minus x (s_offset s))) /\
    (forall g, v = RGrad g \/ (exists f, v = RBoth f g) -> (g < length h')%nat /\ read h' g = chain_grad (s_losses s) (s_coef s) (own_weights h) (minus x (s_offset s)) /\ (s_coef s = 1 -> g = s_buf s) /\ (s_coef s <> 1 -> (length h <= g)%nat)) /\
    (m = EvFunc <-> exists f, v = RFunc f) /\ (m = EvGrad <-> exists g, v = RGrad g) /\ (m = EvBoth <-> exists f g, v = RBoth f g).
Proof. exact chain_works. Qed.
Print Assumptions C74_chain.
Theorem C74_chain_gradient : forall h losses c off x, (forall l, In l losses -> made h l) -> off_fits (total_size losses) off -> length x = total_size losses -> chain_regular losses (minus x off) ->
  is_gradient (total_size losses) (fun z => chain_value losses c (own_weights h) (minus z off)) x (chain_grad losses c (own_weights h) (minus x off)).
Proof. exact chain_gradient. Qed.
Print Assumptions C74_chain_gradient.
(** So a subsample has the values of the original. *)
Theorem C74_chain_subsample_refuted : forall h s idx, chain_ok h s -> 0 <= s_coef s -> (forall w, s_cw s = Some w -> (w < length h)%nat /\ legal_weights (total_size (s_losses s)) (read h w)) -> s_losses s <> [] -> (match s_offset s with Some v => all_zero v = false | None => True end) ->
  Forall (fun i => (i < total_size (s_losses s))%nat) idx ->
  exists h' s', subsample_chain h s idx = (h', Ok s') /\ (forall r, (r < length h)%nat -> read h' r = read h r) /\ chain_ok h' s' /\ s_losses s' = s_losses s /\ s_coef s' = s_coef s /\ s_offset s' = s_offset s /\
    (exists w, s_cw s' = Some w /\ (length h <= w)%nat) /\ (forall l, In l (s_losses s) -> own_weights h' l = own_weights h l).
Proof. exact chain_subsample. Qed.
Print Assumptions C74_chain_subsample_refuted.
Definition chained : stacked := mk_stacked [g0 [1] None; g0 [1; 2] None] 1 None (mk_iq 0 (FScal 0) (FScal 0) 0) (Some 1%nat) 0%nat.
Example C74_chain_instance : let h := [[0; 0; 0]; [0; 0; 0]] in chain_ok h chained /\ arg_free h chained (Some 1%nat) /\ chain_regular (s_losses chained) [0; 0; 0].
Proof.
  intros h. assert (M : forall y, made h (g0 y None)). { intros y. exists None, None. split; [|split; [discriminate|split; [reflexivity|exact I]]]. unfold new_loss, g0. cbn. destruct (Rlt_dec 1 0); [lra|]. reflexivity. }
  split; [|split].
  - split; [intros l [<-|[<-|[]]]; split; auto; discriminate|]. split; [exact I|]. split; [cbn; lia|reflexivity].
  - intros r X. injection X as <-. split; [cbn; lia|]. split; [discriminate|]. intros l [<-|[<-|[]]]; discriminate.
  - repeat constructor.
Qed.
(** weights of zero everywhere, and the value is not zero *)
Theorem C74_chain_weights_refuted : exists h', chain_eval [[0; 0; 0]; [0; 0; 0]] chained None [0; 0; 0] EvFunc = (h', Ok (RFunc 3)).
Proof.
  destruct C74_chain_instance as (K & _ & _). destruct (chain_works _ chained None [0; 0; 0] EvFunc K ltac:(intros r X; discriminate) eq_refl I) as (h' & v & E & _ & _ & _ & _ & V & _ & I1 & _). destruct (proj1 I1 eq_refl) as [f ->]. exists h'. rewrite E. f_equal. f_equal. f_equal. rewrite (V f (or_introl eq_refl)).
  unfold chain_value, chained, g0. cbn. unfold scale. destruct (Req_EM_T 1 1); [|lra]. unfold vsum. cbn. lra.
Qed.
Print Assumptions C74_chain_weights_refuted.
(** Multiresponse models: the linear predictor is the matrix product; ... *)
Theorem C74_product : forall X p q B, length B = (p * q)%nat -> Forall (fun r => length r = p) X -> left_mul X p q B = concat (mat_times X p q B).
Proof. exact left_mul_eq. Qed.
Print Assumptions C74_product.
Theorem C74_adjoint : forall X p q B U, length B = (p * q)%nat -> length U = (length X * q)%nat -> dot (concat (mat_times X p q B)) U = dot B (left_tmul X p q U).
Proof. exact left_adjoint. Qed.
Print Assumptions C74_adjoint.
(** ... over a multinomial loss the value is that of the loss with the weights of the model, the gradient is the gradient, and nothing is written; ... *)
Theorem C74_multinomial : forall h g l B m, mglm_shapes h g -> mg_sat g = Multi l -> multi_fits (m_base l) (m_rows l) (m_cols l) (m_counts l) (m_offset l) (read h (mg_cw g)) -> length B = (mg_p g * m_cols l)%nat -> is_eval m ->
  exists f u, mglm_eval h g B m = (h, Ok (both m f u)) /\
    f = multi_func (m_base l) (m_rows l) (m_cols l) (m_counts l) (m_coef l) (m_offset l) (read h (mg_cw g)) (mglm_pred g B) /\
    (within 50 (minus (mglm_pred g B) (m_offset l)) -> f = m_coef l * neg_log_lik (m_counts l) (read h (mg_cw g)) (all_predictors (m_base l) (rows (m_rows l) (m_cols l) (minus (mglm_pred g B) (m_offset l))))) /\
    (inside 50 (minus (mglm_pred g B) (m_offset l)) ->
     is_gradient (mg_p g * m_cols l) (fun B => multi_func (m_base l) (m_rows l) (m_cols l) (m_counts l) (m_coef l) (m_offset l) (read h (mg_cw g)) (mglm_pred g B)) B u).
Proof. exact mglm_multi_works. Qed.
Print Assumptions C74_multinomial.
(** ... over a stack, the same with the product of the weights, ... *)
Theorem C74_multiresponse : forall h g s n B m, mglm_shapes h g -> mg_sat g = Stack s -> stack_ok h s n -> mg_cw g <> s_buf s -> length B = (mg_p g * s_cols s)%nat -> is_eval m ->
  let cw := vmul (read h (mg_cw g)) (stack_weights h s n) in
  exists h' f u, mglm_eval h g B m = (h', Ok (both m f u)) /\ mglm_shapes h' g /\ stack_ok h' s n /\ read h' (mg_cw g) = cw /\ (forall r, (r < length h)%nat -> r <> s_buf s -> r <> mg_cw g -> read h' r = read h r) /\
    (m <> EvGrad -> f = stack_value n (s_losses s) (s_coef s) cw (minus (mglm_pred g B) (s_offset s))) /\
    (m <> EvFunc -> stack_regular n (s_losses s) (minus (mglm_pred g B) (s_offset s)) -> is_gradient (mg_p g * s_cols s) (fun B => stack_value n (s_losses s) (s_coef s) cw (minus (mglm_pred g B) (s_offset s))) B u).
Proof. exact mglm_stack_works. Qed.
Print Assumptions C74_multiresponse.
Definition model : mglm := mk_mglm (Stack two) [[1]; [2]] 1 None (mk_iq 0 (FScal 0) (FScal 0) 0) 2%nat.
Example C74_model_instance : let h := [[1; 3]; [0; 0; 0; 0]; [1; 1]] in mglm_shapes h model /\ mg_cw model <> s_buf two /\ s_cw two <> Some (mg_cw model) /\ length [1; 2] = (mg_p model * s_cols two)%nat.
Proof. intros h. split; [|split; [discriminate|split; [discriminate|reflexivity]]]. split; [repeat constructor|]. split; [reflexivity|]. split; [exact I|]. split; [cbn; lia|reflexivity]. Qed.
(** ... which is written into the weights of the model: with weights in the stack a second evaluation at the same point returns another value. *)
Theorem C74_decays_refuted : forall h g s n B, mglm_shapes h g -> mg_sat g = Stack s -> stack_ok h s n -> mg_cw g <> s_buf s -> s_cw s <> Some (mg_cw g) -> length B = (mg_p g * s_cols s)%nat ->
  exists h1 h2, mglm_eval h g B EvFunc = (h1, Ok (VFunc (stack_value n (s_losses s) (s_coef s) (vmul (read h (mg_cw g)) (stack_weights h s n)) (minus (mglm_pred g B) (s_offset s))))) /\
    mglm_eval h1 g B EvFunc = (h2, Ok (VFunc (stack_value n (s_losses s) (s_coef s) (vmul (vmul (read h (mg_cw g)) (stack_weights h s n)) (stack_weights h s n)) (minus (mglm_pred g B) (s_offset s))))).
Proof. exact mglm_decays. Qed.
Print Assumptions C74_decays_refuted.
(** Without weights in the stack a model can be evaluated any number of times. *)
Theorem C74_model_history : forall ops h g s n, mglm_shapes h g -> mg_sat g = Stack s -> stack_ok h s n -> mg_cw g <> s_buf s -> s_cw s = None -> Forall (fun o => length (fst o) = (mg_p g * s_cols s)%nat /\ is_eval (snd o)) ops ->
  mglm_shapes (mrun g h ops) g /\ stack_ok (mrun g h ops) s n /\ forall r, (r < length h)%nat -> r <> s_buf s -> read (mrun g h ops) r = read h r.
Proof. exact mglm_history. Qed.
Print Assumptions C74_model_history.
(** A subsample of a model restricts its weights, in a new array. *)
Theorem C74_multinomial_subsample : forall h g l idx, mglm_shapes h g -> mg_sat g = Multi l -> Forall (fun i => (i < length (mg_X g))%nat) idx ->
  exists h' g', subsample_mglm h g idx = (h', Ok g') /\ (forall r, (r < length h)%nat -> read h' r = read h r) /\ mglm_shapes h' g' /\ mg_sat g' = mg_sat g /\ mg_X g' = mg_X g /\ mg_p g' = mg_p g /\ mg_offset g' = mg_offset g /\
    read h' (mg_cw g') = restrict idx (read h (mg_cw g)).
Proof. exact mglm_multi_subsample. Qed.
Print Assumptions C74_multinomial_subsample.
Theorem C74_multiresponse_subsample : forall h g s n idx, mglm_shapes h g -> mg_sat g = Stack s -> stack_ok h s n -> stack_sane h s n -> Forall (fun i => (i < n)%nat) idx ->
  exists h' g' s', subsample_mglm h g idx = (h', Ok g') /\ (forall r, (r < length h)%nat -> read h' r = read h r) /\ mglm_shapes h' g' /\ mg_sat g' = Stack s' /\ stack_ok h' s' n /\ mg_cw g' <> s_buf s' /\
    s_losses s' = s_losses s /\ s_coef s' = s_coef s /\ s_offset s' = s_offset s /\ mg_X g' = mg_X g /\ mg_p g' = mg_p g /\ mg_offset g' = mg_offset g /\
    read h' (mg_cw g') = restrict idx (read h (mg_cw g)) /\ stack_weights h' s' n = stack_weights h s n.
Proof. exact mglm_stack_subsample. Qed.
Print Assumptions C74_multiresponse_subsample.
(** mglm.stacked always raises. *)
Theorem C74_stacked_refuted : forall h X p losses c soff off qd weights, mglm_stacked h X p losses c soff off qd weights = (h, Err NameError).
Proof. reflexivity. Qed.
Print Assumptions C74_stacked_refuted.
(** The constructor of a stack accepts exactly a non-empty list of losses of one shape, with coef and weights that are not negative. *)
Theorem C74_constructor : forall h losses c off qd weights,
  ((exists h' s, new_stacked h losses c off qd weights = (h', Ok s)) <-> losses <> [] /\ 0 <= c /\ same_shapes losses /\ weights_proper h losses weights) /\
  (losses = [] -> new_stacked h losses c off qd weights = (h, Err IndexError)) /\
  (losses <> [] -> c < 0 -> new_stacked h losses c off qd weights = (h, Err ValueError)) /\
  (0 <= c -> ~ same_shapes losses -> new_stacked h losses c off qd weights = (h, Err AssertionError)) /\
  (losses <> [] -> 0 <= c -> same_shapes losses -> ~ weights_proper h losses weights -> new_stacked h losses c off qd weights = (h, Err ValueError)).
Proof. exact new_stacked_refuses. Qed.
Print Assumptions C74_constructor.
Example C74_constructor_instance : ~ same_shapes [g0 [1; 2] None; g0 [1; 2; 3] None] /\ same_shapes [g0 [1; 2] None; g0 [3; 4] None].
Proof. split; [intros (n & H); inversion H; subst; inversion H3; subst; discriminate|exists 2%nat; repeat constructor]. Qed.
