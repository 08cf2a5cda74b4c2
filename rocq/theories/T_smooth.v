(** C38: affine composition and weighted sums of smooth objects. *)
From Coq Require Import Reals List Lra Lia Arith Bool.
From Verif Require Import M_affine SpecAffine P_affine Vec Spec M_quad SpecConvex M_loss SpecLoss M_smooth SpecSmooth P_smooth.
Import ListNotations.
Local Open Scope R_scope.

(** loss.affine(T, b) at x is the loss at T x + b, its gradient T^T of the loss gradient there *)
Theorem C38_affine_partial : forall k T n m b c q cw a x, subtracts_offset k -> good_design T n m -> length b = m -> length x = n -> cls_affine k T (Some b) c q cw = Ok a ->
  s_func a x = loss_func k c None cw (vadd (t_aff T x) b) /\ s_grad a x = t_adj T (loss_grad k c None cw (vadd (t_aff T x) b)).
Proof. exact affine_rule. Qed.
Print Assumptions C38_affine_partial.
Theorem C38_cloglog_refuted : exists a, cls_affine (Cloglog [0] [1]) (matrix [[1]] 1 None) (Some [-1]) 1 None [1] = Ok a /\ s_func a [0] = exp 0 /\ doc_loss (Cloglog [0] [1]) 1 1 [1] (vadd (mat_vec [[1]] [0]) [-1]) = exp (-1).
Proof. exact cloglog_affine_ignores. Qed.
Print Assumptions C38_cloglog_refuted.
Theorem C38_linear : forall k T n m o c q cw a x, subtracts_offset k -> good_design T n m -> off_fits m o -> length x = n -> cls_linear k T o c q cw = Ok a ->
  s_func a x = loss_func k c None cw (minus (t_aff T x) o) /\ s_grad a x = t_adj T (loss_grad k c None cw (minus (t_aff T x) o)).
Proof. exact linear_rule. Qed.
Print Assumptions C38_linear.
Theorem C38_shift : forall k o c q cw a x, subtracts_offset k -> length x = length o -> cls_shift k o c q cw = Ok a ->
  s_func a x = loss_func k c None cw (vsub x o) /\ s_grad a x = loss_grad k c None cw (vsub x o).
Proof. exact shift_rule. Qed.
Print Assumptions C38_shift.
Theorem C38_squared_error : forall T n m (Y : vec) c a x, good_design T n m -> length Y = m -> length x = n -> squared_error T Y c = Ok a ->
  s_func a x = c / 2 * sqn (vsub (t_aff T x) Y) /\ s_grad a x = t_adj T (vscal c (vsub (t_aff T x) Y)).
Proof. exact squared_error_rule. Qed.
Print Assumptions C38_squared_error.
Theorem C38_sum : forall l weights a n x, new_sum l weights = Ok a -> Forall (fun b => wf b n) l -> length x = n ->
  let ws := match weights with Some w => w | None => const_vec (length l) 1 end in
  length ws = length l /\ nonneg ws /\ s_func a x = dot ws (map (fun b => s_func b x) l) /\ forall j, (j < n)%nat -> nth j (s_grad a x) 0 = dot ws (map (fun b => nth j (s_grad b x) 0) l).
Proof. exact sum_rule. Qed.
Print Assumptions C38_sum.
Theorem C38_sum_accepts : forall l w, (exists a, new_sum l (Some w) = Ok a) <-> (l <> [] /\ length w = length l /\ nonneg w).
Proof. exact sum_accepts. Qed.
Print Assumptions C38_sum_accepts.
(** objects of any depth: the value is the documented function, the gradient its gradient, and it lies above its tangents *)
Theorem C38_value : forall a n x, wf a n -> length x = n -> everywhere exact_case a x -> s_func a x = meaning a x.
Proof. exact smooth_value. Qed.
Print Assumptions C38_value.
Theorem C38_gradient : forall a n x, wf a n -> length x = n -> everywhere regular_case a x -> is_gradient n (s_func a) x (s_grad a x).
Proof. exact smooth_gradient. Qed.
Print Assumptions C38_gradient.
Theorem C38_tangent : forall a n x y, wf a n -> convex_parts a -> length x = n -> length y = n -> everywhere exact_case a y -> s_func a x + dot (s_grad a x) (vsub y x) <= s_func a y.
Proof. exact smooth_tangent. Qed.
Print Assumptions C38_tangent.
Example C38_case : let X := matrix [[1; 2]; [0; 1]; [3; -1]] 2 None in
  let a := SSum [SAff (SLoss (Gaussian [1; 1; 0]) 3 1 (Some [2; 0; 1]) [1; 1; 2] no_quad) X no_quad; SGlm (Logistic [1; 0; 1] [1; 1; 1]) 3 1 None [1; 1; 1] X (Some [1; 0]) no_quad; SZero 2 no_quad] [1; 3; 1] no_quad in
  wf a 2 /\ convex_parts a /\ everywhere exact_case a [1; 1] /\ everywhere regular_case a [1; 1].
Proof.
  cbv zeta. assert (G : good_design (matrix [[1; 2]; [0; 1]; [3; -1]] 2 None) 2 3). { assert (B : built (matrix [[1; 2]; [0; 1]; [3; -1]] 2 None)) by (apply b_matrix; [repeat constructor|discriminate]). split; [apply built_good; auto|]. split; [apply (built_good _ B)|split; reflexivity]. }
  split; [|split; [|split]].
  - cbn. split; [discriminate|]. split; auto. split; [split; [exact G|]; unfold fits_loss; cbn; auto|]. split; auto. split; [unfold fits_loss; cbn; auto|]. split; auto.
  - cbn. repeat split; auto; try (repeat constructor; lra); lra.
  - cbn. repeat split; auto; repeat constructor; cbn; unfold dot; cbn; lra.
  - cbn. repeat split; auto; repeat constructor; cbn; unfold dot; cbn; lra.
Qed.
