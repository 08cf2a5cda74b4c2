(** C83, C84: the optimality check and the strong rule of the mixed lasso. *)
From Coq Require Import Reals List Arith Lra Lia Bool ZArith Permutation.
From Verif Require Import M_loss Vec Spec SpecConvex SpecFista SpecAtom M_quad M_shift SpecWeighted SpecPart SpecGroup M_mixed M_mixed_atom SpecGatom M_mkkt SpecMkkt P_mkkt P_mkkt2.
Import ListNotations.
Local Open Scope R_scope.

(** ** C83. check_KKT: [mixed_minimizer labels given f lam s] says that s minimizes f + lam P, P the documented penalty. *)
(** One answer for each coordinate. *)
Theorem C83_length : forall a g s lam tol, length g = length (ml_labels a) -> length s = length (ml_labels a) -> length (ml_check_KKT a g s lam tol) = length (ml_labels a).
Proof. exact check_length. Qed.
Print Assumptions C83_length.
(** The coordinates reported are exactly those where the condition (SpecMkkt.reported) fails. *)
Theorem C83_meaning : forall a g s lam tol i, enumerates (ml_ids a) (ml_labels a) -> weights_ok (ml_labels a) (ml_weights a) -> length g = length (ml_labels a) -> length s = length (ml_labels a) -> (i < length (ml_labels a))%nat ->
  nth i (ml_check_KKT a g s lam tol) false = true <-> reported (ml_labels a) (group_weight (ml_weights a) (ml_labels a)) g s lam tol i.
Proof. exact check_exact. Qed.
Print Assumptions C83_meaning.
(** At a minimizer, with its gradient, nothing is reported. *)
Theorem C83_complete : forall a f g s lam tol, enumerates (ml_ids a) (ml_labels a) -> weights_ok (ml_labels a) (ml_weights a) -> 0 < lam -> 0 < tol -> is_gradient (length (ml_labels a)) f s g ->
  mixed_minimizer (ml_labels a) (ml_weights a) f lam s -> ml_check_KKT a g s lam tol = repeat false (length (ml_labels a)).
Proof. exact check_complete. Qed.
Print Assumptions C83_complete.
(** If nothing is reported, the solution is feasible, the gradient vanishes on the unpenalized coordinates and each group points against its gradient, then the solution is optimal up to the tolerance. *)
Theorem C83_sound_partial : forall a f g s lam tol r y t, enumerates (ml_ids a) (ml_labels a) -> weights_ok (ml_labels a) (ml_weights a) -> 0 < lam -> convex_on (length (ml_labels a)) f -> is_gradient (length (ml_labels a)) f s g ->
  length s = length (ml_labels a) -> ml_check_KKT a g s lam tol = repeat false (length (ml_labels a)) ->
  Forall (fun b => b = 0) (block (ml_labels a) (-1) g) -> (forall l, In l (ml_labels a) -> reserved l = false -> dot (block (ml_labels a) l g) (block (ml_labels a) l s) = - (norm (block (ml_labels a) l g) * norm (block (ml_labels a) l s))) ->
  mixed_pen (ml_labels a) (group_weight (ml_weights a) (ml_labels a)) s = Fin r -> length y = length (ml_labels a) -> mixed_pen (ml_labels a) (group_weight (ml_weights a) (ml_labels a)) y = Fin t ->
  f s + lam * r <= f y + lam * t + lam * tol * (r + t + vsum (block (ml_labels a) (-4) y)) + / 100 * vsum (block (ml_labels a) (-4) s).
Proof. exact check_sound. Qed.
Print Assumptions C83_sound_partial.
(** The unpenalized coordinates are never examined: a point with an arbitrarily better neighbour is accepted. *)
Theorem C83_unpenalized_refuted : forall lam tol M, exists f g s, convex_on 1 f /\ is_gradient 1 f s g /\ ml_check_KKT (mlobj [(-1)%Z] [] (fun _ => None)) g s lam tol = [false] /\
  mixed_pen [(-1)%Z] (fun _ => 1) s = Fin 0 /\ exists y, length y = 1%nat /\ mixed_pen [(-1)%Z] (fun _ => 1) y = Fin 0 /\ f y = f s - M.
Proof. exact free_unchecked. Qed.
Print Assumptions C83_unpenalized_refuted.
(** The direction of a group is not examined: a point pointing along its gradient is accepted. *)
Theorem C83_direction_refuted : forall tol, 0 <= tol -> exists f g s, convex_on 2 f /\ is_gradient 2 f s g /\ ml_check_KKT (mlobj [1%Z; 1%Z] [1%Z] (fun _ => Some 1)) g s 1 tol = [false; false] /\
  mixed_pen [1%Z; 1%Z] (fun _ => 1) s = Fin 1 /\ mixed_pen [1%Z; 1%Z] (fun _ => 1) [0; 0] = Fin 0 /\ f s + 1 = f [0; 0] + 2.
Proof. exact direction_unchecked. Qed.
Print Assumptions C83_direction_refuted.
(** A point violating the sign constraints is accepted. *)
Theorem C83_infeasible_refuted : forall lam tol, 0 < lam -> 0 < tol -> ml_check_KKT (mlobj [(-4)%Z] [] (fun _ => None)) [0] [-1] lam tol = [false] /\ mixed_pen [(-4)%Z] (fun _ => 1) [-1] = PInf /\
  ml_check_KKT (mlobj [(-3)%Z] [] (fun _ => None)) [- lam] [-1] lam tol = [false] /\ mixed_pen [(-3)%Z] (fun _ => 1) [-1] = PInf.
Proof. exact infeasible_accepted. Qed.
Print Assumptions C83_infeasible_refuted.
(** For nonnegative coordinates off zero the tolerance asked for has no effect: the gradient may reach 1/100. *)
Theorem C83_tolerance_refuted : forall lam tol M, 0 < lam -> 0 < tol -> 0 < M -> exists f, convex_on 1 f /\ is_gradient 1 f [M] [/ 100] /\ ml_check_KKT (mlobj [(-4)%Z] [] (fun _ => None)) [/ 100] [M] lam tol = [false] /\
  mixed_pen [(-4)%Z] (fun _ => 1) [M] = Fin 0 /\ mixed_pen [(-4)%Z] (fun _ => 1) [0] = Fin 0 /\ f [M] = f [0] + M / 100.
Proof. exact nn_fixed_tolerance. Qed.
Print Assumptions C83_tolerance_refuted.
Example C83_case : enumerates [1%Z] four /\ weights_ok four (fun _ => None) /\ convex_on 4 (dot [2; 0; 0; 0]) /\ is_gradient 4 (dot [2; 0; 0; 0]) [-1; 0; 0; 0] [2; 0; 0; 0] /\ mixed_minimizer four (fun _ => None) (dot [2; 0; 0; 0]) 1 [-1; 0; 0; 0] /\
  (forall l, In l four -> reserved l = false -> dot (block four l [2; 0; 0; 0]) (block four l [-1; 0; 0; 0]) = - (norm (block four l [2; 0; 0; 0]) * norm (block four l [-1; 0; 0; 0]))).
Proof.
  split; [apply Permutation_refl|]. split; [intros l Hl; change (mixed_groups four) with [1%Z] in Hl; destruct Hl as [<-|[]]; rewrite four_weight; lra|]. split; [apply linear_convex; auto|]. split; [apply linear_gradient; auto|]. split; [exact four_minimum|].
  intros l Hl _. assert (l = 1%Z) as -> by (cbn in Hl; intuition). unfold block. cbn [four pick Z.eqb Pos.eqb]. rewrite !norm4, Rabs_right, Rabs_left by lra. unfold dot. cbn. lra.
Qed.

(** ** C84. strong_set *)
(** One answer for each coordinate. *)
Theorem C84_length : forall a cur new g slope, length g = length (ml_labels a) -> length (ml_strong_set a cur new g slope) = length (ml_labels a).
Proof. exact strong_length. Qed.
Print Assumptions C84_length.
(** The coordinates kept are exactly those of the rule (SpecMkkt.kept_by_rule). *)
Theorem C84_meaning : forall a cur new g slope i, enumerates (ml_ids a) (ml_labels a) -> weights_ok (ml_labels a) (ml_weights a) -> length g = length (ml_labels a) -> (i < length (ml_labels a))%nat ->
  nth i (ml_strong_set a cur new g slope) false = true <-> kept_by_rule (ml_labels a) (group_weight (ml_weights a) (ml_labels a)) g cur new slope i.
Proof. exact strong_exact. Qed.
Print Assumptions C84_meaning.
(** A discarded coordinate is zero at the minimizer for the new value, if its gradient moves by at most slope times the change of the value and groups have weight at most one. *)
Theorem C84_safe_partial : forall a f g gn s cur new slope i, enumerates (ml_ids a) (ml_labels a) -> weights_ok (ml_labels a) (ml_weights a) -> 0 < new -> new <= cur -> 0 <= slope -> length g = length (ml_labels a) ->
  is_gradient (length (ml_labels a)) f s gn -> mixed_minimizer (ml_labels a) (ml_weights a) f new s -> (i < length (ml_labels a))%nat ->
  (reserved (nth i (ml_labels a) 0%Z) = true -> Rabs (nth i gn 0 - nth i g 0) <= slope * (cur - new)) ->
  (reserved (nth i (ml_labels a) 0%Z) = false -> norm (block (ml_labels a) (nth i (ml_labels a) 0%Z) (vsub gn g)) <= slope * (cur - new) /\ group_weight (ml_weights a) (ml_labels a) (nth i (ml_labels a) 0%Z) <= 1) ->
  nth i (ml_strong_set a cur new g slope) false = false -> nth i s 0 = 0.
Proof. exact strong_safe. Qed.
Print Assumptions C84_safe_partial.
(** With the default weights it is not: a group of four features, discarded although the gradient moves within the slope, is not zero. *)
Theorem C84_weights_refuted : exists f g gn s, convex_on 4 f /\ is_gradient 4 f s gn /\ mixed_minimizer four (fun _ => None) f 1 s /\ norm (vsub gn g) <= 1 * (3 / 2 - 1) /\
  nth 0 (ml_strong_set (mlobj four [1%Z] (fun _ => None)) (3 / 2) 1 g 1) false = false /\ nth 0 s 0 <> 0.
Proof. exact strong_unsafe. Qed.
Print Assumptions C84_weights_refuted.
Example C84_case : mixed_minimizer [(-2)%Z; (-2)%Z] (fun _ => None) (dot [1; / 2]) 1 [-3; 0] /\ is_gradient 2 (dot [1; / 2]) [-3; 0] [1; / 2] /\ nth 1 (ml_strong_set (mlobj [(-2)%Z; (-2)%Z] [] (fun _ => None)) (5 / 4) 1 [1; / 2] 1) false = false /\
  nth 0 (ml_strong_set (mlobj [(-2)%Z; (-2)%Z] [] (fun _ => None)) (5 / 4) 1 [1; / 2] 1) false = true.
Proof.
  split; [exact two_minimum|]. split; [apply linear_gradient; auto|]. cbn. unfold ltb. rewrite !Rabs_right by lra. split.
  - destruct (Rlt_dec _ _); cbn; auto. lra.
  - destruct (Rlt_dec _ _); cbn; auto. lra.
Qed.
