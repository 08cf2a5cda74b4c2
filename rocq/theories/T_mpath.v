(** C85, C86: paths of mixed lasso problems. *)
From Coq Require Import Reals List Arith Lra Lia Bool ZArith Permutation.
From Verif Require Import M_loss Vec Spec SpecConvex SpecFista M_quad M_prox M_semi SpecAtom M_shift SpecPart SpecGroup M_mixed M_group M_mixed_atom SpecGatom M_mkkt SpecMkkt M_path M_mpath SpecMpath P_mpath P_mpath2 P_mpath3 P_mpath4.
Import ListNotations.
Local Open Scope R_scope.

(** ** C85. The run of the path. The solver of the subproblems is an arbitrary function unless a hypothesis says otherwise. *)
(** Whatever the solver answers, the run ends: one solution for each value after the first, each the answer for a set that has every unpenalized and nonnegative coordinate, after at most ten tries; one column, count and objective for each value. *)
Theorem C85_total : forall fuel P S enet null lag0 lseq, grad_lengths P -> length null = mp_size P -> (10 <= fuel)%nat -> (2 <= length lseq)%nat ->
  exists out, mp_main fuel P S enet null lag0 lseq = Ok out /\ map mpt_lagrange (mo_points out) = tl lseq /\ Forall (good_point P S) (mo_points out) /\
    length (mo_beta out) = length lseq /\ length (mo_df out) = length lseq /\ length (mo_objective out) = length lseq /\
    mo_objective out = mp_func P null :: map (fun pt => mp_func P (mpt_sol pt)) (mo_points out).
Proof. exact main_total. Qed.
Print Assumptions C85_total.
(** With fewer than two values main raises IndexError. *)
Theorem C85_short : forall fuel P S enet null lag0 lseq, (length lseq < 2)%nat -> mp_main fuel P S enet null lag0 lseq = Err IndexError.
Proof. exact main_short. Qed.
Print Assumptions C85_short.
(** A coordinate that is not zero in a solution returned without a warning is a candidate for all later values, whatever the solver answers. *)
Theorem C85_candidates : forall fuel P S enet null lag0 lseq out, grad_lengths P -> length null = mp_size P -> mp_main fuel P S enet null lag0 lseq = Ok out -> candidates_grow P S (mo_points out).
Proof. exact main_grow. Qed.
Print Assumptions C85_candidates.
(** Without elastic net, a solution returned without a warning passes the optimality check of the whole problem. *)
Theorem C85_checked : forall fuel P S null lag0 lseq out, grad_lengths P -> length null = mp_size P -> (10 <= fuel)%nat -> mp_main fuel P S (0, 0) null lag0 lseq = Ok out ->
  Forall (fun pt => mpt_warned pt = false -> passes_check P pt) (mo_points out).
Proof. exact main_checked. Qed.
Print Assumptions C85_checked.
(** Without elastic net, with an exact solver, a convex loss and given weights, a solution returned without a warning is optimal up to one hundredth. *)
Theorem C85_accuracy_partial : forall fuel P S null lag0 lseq out, convex_on (mp_size P) (mp_func P) -> right_gradient P -> weights_given P -> exact_solver P S -> length null = mp_size P -> (10 <= fuel)%nat ->
  Forall (fun l => 0 < l) lseq -> mp_main fuel P S (0, 0) null lag0 lseq = Ok out ->
  Forall (fun pt => mpt_warned pt = false -> near_minimizer P (mpt_lagrange pt) mtol (mpt_sol pt)) (mo_points out).
Proof. exact main_near. Qed.
Print Assumptions C85_accuracy_partial.
(** The converse fails: with an exact solver a run can warn although the reported solution is the exact minimizer, because a group of weight 2 is left out when the gradient of the strong set is computed. *)
Theorem C85_warning_refuted : exists P S out pt, convex_on (mp_size P) (mp_func P) /\ right_gradient P /\ weights_given P /\
  (forall k x set, length set = mp_size P -> restricted_minimizer P set (6 / 5) (S k x set (6 / 5))) /\
  null_minimizer P [1] /\ max_at P [0; 1] = Some (5 / 4) /\ mp_main 10 P S (0, 0) [0; 1] (5 / 4) [5 / 4; 6 / 5] = Ok out /\ mo_points out = [pt] /\ mpt_warned pt = true /\ path_minimizer P (6 / 5) (mpt_sol pt).
Proof. exact warned_minimizer. Qed.
Print Assumptions C85_warning_refuted.
(** The first column is divided by the scalings, the others are not: the same solution gives two different columns. *)
Theorem C85_columns_refuted : exists P S out pt, convex_on (mp_size P) (mp_func P) /\ right_gradient P /\ (forall k x set, length set = mp_size P -> restricted_minimizer P set 1 (S k x set 1)) /\ null_minimizer P [3] /\ mp_scal P = [2] /\
  mp_main 10 P S (0, 0) [3] 2 [2; 1] = Ok out /\ mo_points out = [pt] /\ mpt_warned pt = false /\ mpt_sol pt = [3] /\ mo_beta out = [[3 / 2]; [3]].
Proof. exact columns_wrong. Qed.
Print Assumptions C85_columns_refuted.
(** The count for every value after the first is the number of features, whatever the solution. *)
Theorem C85_df_refuted : forall fuel P S enet null lag0 lseq out, mp_main fuel P S enet null lag0 lseq = Ok out ->
  mo_df out = length (filter (fun b => b) (initial_active P)) :: repeat (mp_size P) (length (mo_points out)).
Proof. exact main_df. Qed.
Print Assumptions C85_df_refuted.
(** With positive objectives the deviance ratios are in [0, 1), 0 is among them, and a smaller objective has a larger ratio. *)
Theorem C85_devratio : forall o, o <> [] -> Forall (fun a => 0 < a) o -> length (devratio o) = length o /\ Forall (fun d => 0 <= d < 1) (devratio o) /\ In 0 (devratio o) /\
  forall i j, (i < length o)%nat -> (j < length o)%nat -> nth i o 0 <= nth j o 0 -> nth j (devratio o) 0 <= nth i (devratio o) 0.
Proof. exact devratio_range. Qed.
Print Assumptions C85_devratio.
(** With an elastic net the solution reported minimizes the problem without it, and the run warns. *)
Theorem C85_elastic_net_refuted : exists P S out pt, convex_on (mp_size P) (mp_func P) /\ right_gradient P /\ (forall k x set, length set = mp_size P -> restricted_minimizer P set 2 (S k x set 2)) /\
  mp_main 10 P S (1, 0) [0] 3 [3; 2] = Ok out /\ mo_points out = [pt] /\ mpt_warned pt = true /\ path_minimizer P 2 (mpt_sol pt) /\
  exists y, length y = mp_size P /\ mp_func P y + 2 * (1 / 2 * sqn y + ell1 y) < mp_func P (mpt_sol pt) + 2 * (1 / 2 * sqn (mpt_sol pt) + ell1 (mpt_sol pt)).
Proof. exact elastic_net_wrong. Qed.
Print Assumptions C85_elastic_net_refuted.
Example C85_case : convex_on (mp_size Plasso) (mp_func Plasso) /\ right_gradient Plasso /\ weights_given Plasso /\ exact_solver Plasso Ssoft /\
  exists out pt, mp_main 10 Plasso Ssoft (0, 0) [0] 3 [3; 2] = Ok out /\ mo_points out = [pt] /\ mpt_warned pt = false /\ mpt_tries pt = 2%nat /\ mpt_sol pt = [1].
Proof. split; [apply quad1_convex|]. split; [intros x Lx; apply quad1_gradient; auto|]. split; [intros l []|]. split; [exact soft_exact|exact soft_run]. Qed.

(** ** C86. lagrange_max, null_solution and the sequence of values *)
(** lagrange_max is at most lam exactly when the gradient at the null solution is within lam, coordinate by coordinate and group by group; for the positive part, its positive values. *)
Theorem C86_meaning : forall P s lam, grad_lengths P -> length s = mp_size P -> 0 <= lam -> weights_positive P -> let g := mp_grad P s in
  at_most (max_at P s) lam <-> (forall i, (i < mp_size P)%nat -> nth i (mp_labels P) 0%Z = (-2)%Z -> Rabs (nth i g 0) <= lam) /\
    (forall i, (i < mp_size P)%nat -> nth i (mp_labels P) 0%Z = (-3)%Z -> nth i g 0 <= lam) /\
    (forall l, In l (mixed_groups (mp_labels P)) -> norm (block (mp_labels P) l g) <= group_weight (mp_weights P) (mp_labels P) l * lam).
Proof. exact max_meaning. Qed.
Print Assumptions C86_meaning.
(** Without positive part labels, with positive weights, the null solution solves the problem at lam exactly when lagrange_max is at most lam. *)
Theorem C86_smallest_partial : forall P b lam, convex_on (mp_size P) (mp_func P) -> right_gradient P -> weights_positive P -> ~ In (-3)%Z (mp_labels P) -> null_minimizer P b -> 0 < lam ->
  path_minimizer P lam (embed_mask (initial_active P) b) <-> at_most (max_at P (embed_mask (initial_active P) b)) lam.
Proof. exact null_optimal_iff. Qed.
Print Assumptions C86_smallest_partial.
(** With a positive part the sign is wrong: lagrange_max can be 0 although the null solution is not optimal at 1, and 3 although it is optimal at every positive value. *)
Theorem C86_positive_part_refuted : exists P Q b, convex_on (mp_size P) (mp_func P) /\ right_gradient P /\ null_minimizer P b /\ max_at P (embed_mask (initial_active P) b) = Some 0 /\ ~ path_minimizer P 1 (embed_mask (initial_active P) b) /\
  convex_on (mp_size Q) (mp_func Q) /\ right_gradient Q /\ null_minimizer Q b /\ max_at Q (embed_mask (initial_active Q) b) = Some 3 /\ forall lam, 0 < lam -> path_minimizer Q lam (embed_mask (initial_active Q) b).
Proof. exact positive_part_wrong. Qed.
Print Assumptions C86_positive_part_refuted.
(** When nothing is penalized by a norm lagrange_max is -inf. *)
Theorem C86_nothing : forall P s, Forall (fun l => l = (-1)%Z \/ l = (-4)%Z) (mp_labels P) -> grad_lengths P -> length s = mp_size P -> max_at P s = None.
Proof. exact no_penalty_max. Qed.
Print Assumptions C86_nothing.
(** Read first, lagrange_max is computed at the null solution and later reads agree. *)
Theorem C86_max_first : forall P solve0, exists z, let v := embed_mask (initial_active P) (solve0 (max_at P (zeros (mp_size P)))) in
  get_max P solve0 fresh = (max_at P v, z) /\ get_max P solve0 z = (max_at P v, z) /\ get_null P solve0 z = (v, z).
Proof. exact max_first. Qed.
Print Assumptions C86_max_first.
(** When null_solution is read first, lagrange_max is computed from the zero vector, for good. *)
Theorem C86_null_first : forall P solve0, exists z, let v := embed_mask (initial_active P) (solve0 (max_at P (zeros (mp_size P)))) in
  get_null P solve0 fresh = (v, z) /\ get_max P solve0 z = (max_at P (zeros (mp_size P)), z) /\ get_null P solve0 z = (v, z).
Proof. exact null_first. Qed.
Print Assumptions C86_null_first.
(** The two orders give different values, with the null problem solved exactly. *)
Theorem C86_order_refuted : exists P solve0 v z1 z2, convex_on (mp_size P) (mp_func P) /\ right_gradient P /\ (forall m, null_minimizer P (solve0 m)) /\
  get_null P solve0 fresh = (v, z1) /\ get_max P solve0 z1 = (Some 4, z1) /\ get_max P solve0 fresh = (Some 1, z2).
Proof. exact order_matters. Qed.
Print Assumptions C86_order_refuted.
(** The sequence has the length asked for, starts at lagrange_max, ends at its proportion, decreases and stays positive. *)
Theorem C86_sequence : forall M prop nstep, 0 < M -> 0 < prop < 1 -> (2 <= nstep)%nat -> let l := mp_sequence M prop nstep in
  length l = nstep /\ nth 0 l 0 = M /\ nth (nstep - 1) l 0 = M * prop /\ (forall i, (S i < nstep)%nat -> nth (S i) l 0 < nth i l 0) /\ Forall (fun a => 0 < a) l.
Proof. exact sequence_shape. Qed.
Print Assumptions C86_sequence.
Example C86_case : convex_on (mp_size Porder) (mp_func Porder) /\ right_gradient Porder /\ weights_positive Porder /\ ~ In (-3)%Z (mp_labels Porder) /\ embed_mask (initial_active Porder) [3] = [3; 0].
Proof.
  split; [apply quad2_convex; intros u v; assert (A := Rle_0_sqr (u + v)); assert (B := Rle_0_sqr v); unfold Rsqr in *; lra|]. split; [intros x Lx; apply quad2_gradient; auto|]. split; [intros l []|]. split; [|reflexivity].
  intros [C|[C|[]]]; discriminate.
Qed.
