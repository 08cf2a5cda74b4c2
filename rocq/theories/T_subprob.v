(** C89, C90: the problems solved along a path, and warm-started paths. *)
From Coq Require Import Reals List Lra Lia Bool ZArith.
From Verif Require Import M_affine SpecAffine Vec Spec SpecConvex M_loss SpecLoss SpecSmooth M_semi M_weighted M_smooth M_problem M_path SpecPath SpecPart SpecGroup M_mixed M_group SpecGpath M_gpath SpecSgpath SpecBlock M_block M_sgb M_sbpath SpecSbpath M_mpath
  M_subprob SpecSubprob P_path6 P_sgpath3 P_sbpath2 P_subprob P_subprob2 P_warm P_warm2.
Import ListNotations.
Local Open Scope R_scope.

(** ** C89. The problem handed to the solver for a set of candidates is the problem of the path for vectors that vanish off the set. *)
(** The lasso *)
Theorem C89_lasso : forall P, good_path P -> forall lam set c, 0 <= lam -> index_set (lp_size P) set -> length c = length set -> objective (sub_loss P set lam) (lasso_pen P set lam) c = Ok (Fin (path_objective P lam (embed (lp_size P) set c))).
Proof. exact lasso_restricted. Qed.
Print Assumptions C89_lasso.
(** Groups *)
Theorem C89_group : forall grad func X groups given enet alpha, let B := gq_base (group_path grad func X groups given enet alpha) in let w := group_weight given groups in good_path B -> length groups = lp_size B -> forall lam set c, length c = length (features groups set) ->
  objective (sub_loss B (features groups set) lam) (M_subprob.group_pen B groups (filled given groups) (features groups set) lam) c = Ok (Fin (gpath_objective B groups w lam (embed (lp_size B) (features groups set) c))).
Proof. exact group_restricted_problem. Qed.
Print Assumptions C89_group.
(** Sparse groups *)
Theorem C89_sparse : forall grad func X groups lw given enet alpha l1_alpha fuel0, let B := gq_base (sparse_group_path grad func X groups lw given enet alpha l1_alpha fuel0) in let ws := sg_weights groups given l1_alpha in let a := map (fun x => x * l1_alpha) lw in let w := fun g => (1 - l1_alpha) * group_weight given groups g in
  good_path B -> length groups = lp_size B -> length lw = length groups -> nonneg a -> forall lam set c, length c = length (features groups set) ->
  objective (sub_loss B (features groups set) lam) (sparse_pen B groups (sg_lasso lw l1_alpha) ws (features groups set) lam) c = Ok (Fin (sparse_objective B groups a w lam (embed (lp_size B) (features groups set) c))).
Proof. exact sparse_restricted_problem. Qed.
Print Assumptions C89_sparse.
(** Rows of matrices *)
Theorem C89_rows : forall order grad func X r c l1 l2 l1_alpha enet alpha fuel0, let B := gq_base (sb_path order grad func X r c l1 l2 l1_alpha enet alpha fuel0) in let labels := row_labels r c in good_path B -> (0 < c)%nat ->
  forall lam set b, 0 <= lam -> length b = length (features labels set) ->
  objective (sub_loss B (features labels set) lam) (block_sub_pen B c l1 l2 (features labels set) lam) b = Ok (Fin (block_objective B r c l1 l2 lam (embed (lp_size B) (features labels set) b))).
Proof. exact block_restricted_problem. Qed.
Print Assumptions C89_rows.
(** What comes back beside the solution: the linear predictor, and the gradient of the smooth part of the path at the candidates, at the solution filled up with zeros *)
Theorem C89_answer : forall P, good_path P -> forall M k pen v set lam, let a := solve_subproblem M k P pen v set lam in index_set (lp_size P) set -> length (an_soln a) = length set ->
  an_linpred a = t_lin (lp_X P) (embed (lp_size P) set (an_soln a)) /\ an_grad a = at_positions set (path_gradient P (embed (lp_size P) set (an_soln a)) (t_lin (lp_X P) (embed (lp_size P) set (an_soln a))) lam).
Proof. exact answer_right. Qed.
Print Assumptions C89_answer.
(** If the solver minimizes what it is given, then the path is run with an exact solver (the hypothesis of C46_exact, ...) *)
Theorem C89_lasso_solver : forall P, good_path P -> forall M, sized M -> (forall set l, index_set (lp_size P) set -> 0 < l -> minimized M (length set) (objective (sub_loss P set l) (lasso_pen P set l))) -> right_size (path_solver M P (lasso_pen P)) /\ exact_solver P (path_solver M P (lasso_pen P)).
Proof. exact lasso_exact. Qed.
Print Assumptions C89_lasso_solver.
(** ... of C70 and C71, ... *)
Theorem C89_group_solver : forall grad func X groups given enet alpha, let B := gq_base (group_path grad func X groups given enet alpha) in let w := group_weight given groups in good_path B -> length groups = lp_size B -> forall M, sized M ->
  (forall set l, 0 < l -> minimized M (length (features groups set)) (objective (sub_loss B (features groups set) l) (M_subprob.group_pen B groups (filled given groups) (features groups set) l))) ->
  right_size (path_solver M B (M_subprob.group_pen B groups (filled given groups))) /\ exact_group_solver B groups w (path_solver M B (M_subprob.group_pen B groups (filled given groups))).
Proof. exact group_exact. Qed.
Print Assumptions C89_group_solver.
(** ... of C72, ... *)
Theorem C89_sparse_solver : forall grad func X groups lw given enet alpha l1_alpha fuel0, let B := gq_base (sparse_group_path grad func X groups lw given enet alpha l1_alpha fuel0) in let ws := sg_weights groups given l1_alpha in let a := map (fun x => x * l1_alpha) lw in let w := fun g => (1 - l1_alpha) * group_weight given groups g in
  good_path B -> length groups = lp_size B -> length lw = length groups -> nonneg a -> forall M, sized M ->
  (forall set l, 0 < l -> minimized M (length (features groups set)) (objective (sub_loss B (features groups set) l) (sparse_pen B groups (sg_lasso lw l1_alpha) ws (features groups set) l))) ->
  right_size (path_solver M B (sparse_pen B groups (sg_lasso lw l1_alpha) ws)) /\ forall k v set l, 0 < l -> sparse_solves B groups a w l set (path_solver M B (sparse_pen B groups (sg_lasso lw l1_alpha) ws) k v (features groups set) l).
Proof. exact sparse_exact. Qed.
Print Assumptions C89_sparse_solver.
(** ... and of C88). *)
Theorem C89_rows_solver : forall order grad func X r c l1 l2 l1_alpha enet alpha fuel0, let B := gq_base (sb_path order grad func X r c l1 l2 l1_alpha enet alpha fuel0) in let labels := row_labels r c in good_path B -> (0 < c)%nat ->
  forall M, sized M -> (forall set l, 0 < l -> minimized M (length (features labels set)) (objective (sub_loss B (features labels set) l) (block_sub_pen B c l1 l2 (features labels set) l))) ->
  right_size (path_solver M B (block_sub_pen B c l1 l2)) /\ forall k v set l, 0 < l -> block_solves B r c l1 l2 l set (path_solver M B (block_sub_pen B c l1 l2) k v (features labels set) l).
Proof. exact block_exact. Qed.
Print Assumptions C89_rows_solver.
(** From the constructor to the last value, all features penalized, max_tries > p: strong_rules ends, gives one point per value and no warning, and every point is optimal for the whole problem up to the tolerance of the check. *)
Theorem C89_end : forall P M chk max_tries fuel l0 ls, good_path P -> (forall j, (j < lp_size P)%nat -> 0 < nth j (lp_weights P) 0) -> sized M ->
  (forall set l, index_set (lp_size P) set -> 0 < l -> minimized M (length set) (objective (sub_loss P set l) (lasso_pen P set l))) -> Forall (fun l => 0 < l) ls -> (lp_size P < max_tries)%nat -> (max_tries + 4 <= fuel)%nat ->
  let '(s, g) := lasso_null M P in exists pts, strong_rules fuel P (path_solver M P (lasso_pen P)) chk max_tries (l0 :: ls) s g = Ok pts /\ map pt_lagrange pts = ls /\
    Forall (fun pt => pt_warned pt = false /\ length (pt_beta pt) = lp_size P /\ forall v, length v = lp_size P ->
      path_objective P (pt_lagrange pt) (pt_beta pt) <= path_objective P (pt_lagrange pt) v + kkt_tol * (lp_alpha P * pt_lagrange pt * sum_over (lp_size P) (fun j => nth j (lp_weights P) 0 * Rabs (nth j v 0)))) pts.
Proof. exact lasso_end. Qed.
Print Assumptions C89_end.
(** The fit of the unpenalized features in the constructor: zero at penalized features, zero gradient at the others; grad_solution is the gradient there. *)
Theorem C89_lasso_null : forall P, good_path P -> forall M, sized M -> minimized M (length (unpenalized P)) (objective (sub_loss P (unpenalized P) big) (lasso_pen P (unpenalized P) big)) ->
  let '(s, g) := lasso_null M P in null_solution P s /\ g = path_gradient P s (t_lin (lp_X P) s) 1.
Proof. exact lasso_null_right. Qed.
Print Assumptions C89_lasso_null.
(** The same for groups *)
Theorem C89_group_null : forall grad func X groups given enet alpha, let B := gq_base (group_path grad func X groups given enet alpha) in let w := group_weight given groups in good_path B -> length groups = lp_size B -> forall M, sized M ->
  (let free := features groups (g_unpenalized groups (filled given groups)) in minimized M (length free) (objective (sub_loss B free big) (M_subprob.group_pen B groups (filled given groups) free big))) ->
  let '(s, g) := group_null_fit M B groups (filled given groups) in group_null B groups w s /\ g = path_gradient B s (t_lin (lp_X B) s) 1.
Proof. exact group_null_right. Qed.
Print Assumptions C89_group_null.
(** One feature, y = 10, the solver soft-thresholds; and the unpenalized fit *)
Example C89_case : good_path (one_path 10) /\ sized (one_min 10) /\ (forall set l, index_set (lp_size (one_path 10)) set -> 0 < l -> minimized (one_min 10) (length set) (objective (sub_loss (one_path 10) set l) (lasso_pen (one_path 10) set l))) /\
  (forall j, (j < lp_size (one_path 10))%nat -> 0 < nth j (lp_weights (one_path 10)) 0) /\ path_solver (one_min 10) (one_path 10) (lasso_pen (one_path 10)) 0%nat [0] [0%nat] 3 = [7].
Proof.
  split; [apply one_good|]. split; [apply one_min_sized|]. split; [intros; apply one_min_right; auto; lra|]. split; [intros [|j] Hj; cbn in *; [lra|lia]|].
  unfold path_solver, solve_subproblem. cbn [an_soln length]. assert (V := lasso_restricted (one_path 10) (one_good 10) 3 [0%nat] [1] ltac:(lra) ltac:(split; [constructor; [intros []|constructor]|repeat constructor]) eq_refl). unfold one_min. rewrite V. change (embed (lp_size (one_path 10)) [0%nat] [1]) with [1]. rewrite one_objective, Rabs_R1. unfold soft. f_equal. destruct (Rle_dec _ _); lra.
Qed.
Example C89_groups_case : (let B := gq_base (tiny_group 10) in good_path B /\ length [1%Z] = lp_size B /\ forall set l, 0 < l -> minimized (one_min 10) (length (features [1%Z] set)) (objective (sub_loss B (features [1%Z] set) l) (M_subprob.group_pen B [1%Z] (filled (lone 1) [1%Z]) (features [1%Z] set) l))) /\
  (let B := gq_base (tiny_sparse 10) in good_path B /\ length [1%Z] = lp_size B /\ nonneg (map (fun x => x * (1 / 2)) [1]) /\ forall set l, 0 < l -> minimized (one_min 10) (length (features [1%Z] set)) (objective (sub_loss B (features [1%Z] set) l) (sparse_pen B [1%Z] (sg_lasso [1] (1 / 2)) (sg_weights [1%Z] (lone 1) (1 / 2)) (features [1%Z] set) l))) /\
  (let B := gq_base (tiny_block 10) in good_path B /\ forall set l, 0 < l -> minimized (one_min 10) (length (features (row_labels 1 1) set)) (objective (sub_loss B (features (row_labels 1 1) set) l) (block_sub_pen B 1 1 1 (features (row_labels 1 1) set) l))).
Proof.
  destruct (tiny_good 10) as (A & B & C). split; [|split]; cbv zeta.
  - split; [exact A|]. split; [reflexivity|]. intros. apply tiny_group_right; auto; lra.
  - split; [exact B|]. split; [reflexivity|]. split; [repeat constructor; lra|]. intros. apply tiny_sparse_right; auto; lra.
  - split; [exact C|]. intros. apply tiny_block_right; auto; lra.
Qed.
Example C89_null_case : good_path (free_one 10) /\ sized (free_min 10) /\ unpenalized (free_one 10) = [0%nat] /\
  minimized (free_min 10) (length (unpenalized (free_one 10))) (objective (sub_loss (free_one 10) (unpenalized (free_one 10)) big) (lasso_pen (free_one 10) (unpenalized (free_one 10)) big)).
Proof. split; [apply free_one_good|]. apply free_min_right. Qed.

(** ** C90. warm_start *)
(** With X without offset the problem solved at each value is the problem of the path: the lasso, ... *)
Theorem C90_lasso : forall P, good_path P -> linear_design P -> forall lam v, length v = lp_size P -> objective (total_loss P lam) (warm_lasso_pen P lam) v = Ok (Fin (path_objective P lam v)).
Proof. exact warm_lasso_value. Qed.
Print Assumptions C90_lasso.
(** ... groups, ... *)
Theorem C90_group : forall grad func X groups given enet alpha, let B := gq_base (group_path grad func X groups given enet alpha) in good_path B -> linear_design B -> length groups = lp_size B ->
  forall lam v, length v = lp_size B -> objective (total_loss B lam) (warm_group_pen B groups (filled given groups) lam) v = Ok (Fin (gpath_objective B groups (group_weight given groups) lam v)).
Proof. exact warm_group_value. Qed.
Print Assumptions C90_group.
(** ... sparse groups, ... *)
Theorem C90_sparse : forall grad func X groups lw given enet alpha l1_alpha fuel0, let B := gq_base (sparse_group_path grad func X groups lw given enet alpha l1_alpha fuel0) in let a := map (fun x => x * l1_alpha) lw in
  good_path B -> linear_design B -> length groups = lp_size B -> length lw = length groups -> nonneg a ->
  forall lam v, length v = lp_size B -> objective (total_loss B lam) (warm_sparse_pen B groups (sg_lasso lw l1_alpha) (sg_weights groups given l1_alpha) lam) v = Ok (Fin (sparse_objective B groups a (fun g => (1 - l1_alpha) * group_weight given groups g) lam v)).
Proof. exact warm_sparse_value. Qed.
Print Assumptions C90_sparse.
(** ... rows of matrices. *)
Theorem C90_rows : forall order grad func X r c l1 l2 l1_alpha enet alpha fuel0, let B := gq_base (sb_path order grad func X r c l1 l2 l1_alpha enet alpha fuel0) in good_path B -> linear_design B ->
  forall lam v, length v = lp_size B -> objective (total_loss B lam) (warm_block_pen B r c l1 l2 lam) v = Ok (Fin (block_objective B r c l1 l2 lam v)).
Proof. exact warm_block_value. Qed.
Print Assumptions C90_rows.
(** One call of the solver per value, in order: started at the last solution, with the inner tolerance and the last final step, all other arguments those of the caller. What is returned are these solutions and the ratios of their losses. *)
Theorem C90_calls : forall M P pen inner_tol step ls x d, ls <> [] -> exists bs steps d', warm_start M P pen inner_tol step ls x d = (Ok (bs, devratio (map (fun b => sm_func (full_loss P) b) bs)), d') /\ warm_calls M P pen inner_tol step ls x d bs steps /\
  (forall n, d' (KOther n) = d (KOther n)) /\ d' KTol = Some inner_tol.
Proof. exact warm_spec. Qed.
Print Assumptions C90_calls.
(** With a solver that minimizes, the solution at each value minimizes the problem there. (C90_lasso, ... are the second hypothesis.) *)
Theorem C90_minimizes : forall M P pen Obj inner_tol step ls x d bs ratios d', warm_start M P pen inner_tol step ls x d = (Ok (bs, ratios), d') ->
  (forall l v, In l ls -> length v = lp_size P -> objective (total_loss P l) (pen l) v = Ok (Fin (Obj l v))) -> (forall l, In l ls -> warm_minimized M (lp_size P) (objective (total_loss P l) (pen l))) ->
  length bs = length ls /\ forall i, (i < length ls)%nat -> is_argmin (lp_size P) (fun v => Fin (Obj (nth i ls 0) v)) (nth i bs []).
Proof. exact warm_exact. Qed.
Print Assumptions C90_minimizes.
(** Then the loss does not increase along decreasing values; the ratios are the share of the first loss that is explained, 0 at the first value and not decreasing. *)
Theorem C90_losses : forall M P pen Q inner_tol step ls x d bs ratios d', length (lp_enet P) = lp_size P -> linear_design P -> no_free_ridge P -> warm_start M P pen inner_tol step ls x d = (Ok (bs, ratios), d') ->
  (forall l v, In l ls -> length v = lp_size P -> objective (total_loss P l) (pen l) v = Ok (Fin (smooth_part P l v + lp_alpha P * l * Q v))) -> (forall l, In l ls -> warm_minimized M (lp_size P) (objective (total_loss P l) (pen l))) ->
  decreasing ls -> Forall (fun l => 0 < l) ls ->
  let f := fun v => lp_func P (t_lin (lp_X P) v) in
  (forall i j, (i < j < length ls)%nat -> f (nth j bs []) <= f (nth i bs [])) /\
  ((forall b, In b bs -> 0 < f b) -> length ratios = length ls /\ (forall i, (i < length ls)%nat -> nth i ratios 0 = explained f (nth 0 bs []) (nth i bs [])) /\ nth 0 ratios 0 = 0 /\ (forall i j, (i < j < length ls)%nat -> nth i ratios 0 <= nth j ratios 0 < 1)).
Proof. exact warm_losses. Qed.
Print Assumptions C90_losses.
(** The number that strong_rules reports as deviance explained, when nothing was given up: that of the last solution, relative to the starting point. *)
Theorem C90_dev : forall P S chk max_tries fuel l0 ls solution g pts, good_path P -> right_size S -> length solution = lp_size P -> (forall j, (j < lp_size P)%nat -> nth j solution 0 = 0) -> strong_rules fuel P S chk max_tries (l0 :: ls) solution g = Ok pts ->
  Forall (fun pt => pt_warned pt = false) pts -> let f := fun v => lp_func P (t_lin (lp_X P) v) in lasso_dev P solution pts = explained f solution (last (betas solution pts) []).
Proof. exact strong_dev. Qed.
Print Assumptions C90_dev.
(** After a warning it is not: the last solution explains 19/100 and 0 is reported. *)
Theorem C90_dev_refuted : exists pt, strong_rules 5 (one_path 10) liar true 1 [9; 1] [0] [-10] = Ok [pt] /\ pt_warned pt = true /\ pt_beta pt = [1] /\
  lasso_dev (one_path 10) [0] [pt] = 0 /\ explained (fun v => lp_func (one_path 10) (t_lin (lp_X (one_path 10)) v)) [0] (pt_beta pt) = 19 / 100.
Proof. exact dev_stale. Qed.
Print Assumptions C90_dev_refuted.
(** tol and start_step of the caller are not used, and tol is overwritten in the dictionary of the caller. *)
Theorem C90_tol_refuted : forall M P pen inner_tol step ls x (d : dict), ls <> [] -> exists d', snd (warm_start M P pen inner_tol step ls x d) = d' /\ d' KTol = Some inner_tol /\
  forall t s, fst (warm_start M P pen inner_tol step ls x (assign (assign d KTol t) KStep s)) = fst (warm_start M P pen inner_tol step ls x d).
Proof. intros M P pen inner_tol step ls x d Ne. destruct (warm_spec M P pen inner_tol step ls x d Ne) as (bs & steps & d1 & E & _ & _ & T). exists d1. rewrite E at 1. split; [reflexivity|]. split; [exact T|]. intros t s. apply warm_args. intros n. reflexivity. Qed.
Print Assumptions C90_tol_refuted.
(** Without values ValueError is raised. *)
Theorem C90_empty_refuted : forall M P pen inner_tol step x d, fst (warm_start M P pen inner_tol step [] x d) = Err ValueError.
Proof. exact warm_empty. Qed.
Print Assumptions C90_empty_refuted.
(** If X has an offset, warm_start and strong_rules solve different problems: here the values at a point are 2 and 0. *)
Theorem C90_offset_refuted : exists P v, good_path P /\ length v = lp_size P /\ path_objective P 1 v = 0 /\ objective (total_loss P 1) (warm_lasso_pen P 1) v = Ok (Fin 2).
Proof. exact warm_offset. Qed.
Print Assumptions C90_offset_refuted.
Example C90_case : good_path (one_path 10) /\ linear_design (one_path 10) /\ no_free_ridge (one_path 10) /\ (forall l, In l [9; 5; 1] -> warm_minimized (one_warm 10) (lp_size (one_path 10)) (objective (total_loss (one_path 10) l) (warm_lasso_pen (one_path 10) l))) /\
  decreasing [9; 5; 1] /\ Forall (fun l => 0 < l) [9; 5; 1].
Proof.
  split; [apply one_good|]. split; [apply one_linear|]. split; [left; reflexivity|]. split; [intros l Hl; apply one_warm_right; [lra|]; destruct Hl as [<-|[<-|[<-|[]]]]; lra|]. split; [|repeat constructor; lra].
  intros i j H. cbn [length] in H. destruct i as [|[|[|i]]], j as [|[|[|j]]]; cbn [nth]; try lia; lra.
Qed.
