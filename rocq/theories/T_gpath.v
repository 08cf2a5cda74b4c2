(** C70, C71, C72: group lasso and sparse group lasso paths. *)
From Coq Require Import Reals List Lra Lia Arith Bool ZArith Permutation.
From Verif Require Import M_affine SpecAffine P_affine P_affine2 M_loss SpecLoss SpecSmooth P_smooth Vec Spec SpecConvex M_quad M_prox M_semi M_weighted P_quad P_calc P_sep P_feas M_problem M_cv SpecCv P_cv M_path SpecPath P_path P_path2 P_path3 P_path4 P_path6
  SpecPart SpecGroup SpecSgl M_mixed M_group M_sgl SpecGatom P_part P_mixed P_kinds P_group P_sgl5 M_gpath SpecGpath P_gpath P_gpath2 P_gpath3 P_gpath4 P_gpath5 P_sgpath P_sgpath2 P_sgpath3 SpecSgpath P_sgpath4 P_sgpath5 P_sgpath6 P_sgpath7.
Import ListNotations.
Local Open Scope R_scope.

Lemma path_weights : forall grad func X groups given enet alpha, lp_weights (gq_base (group_path grad func X groups given enet alpha)) = map (group_weight given groups) groups.
Proof. intros. cbn. apply map_ext_in. intros g Hg. apply weight_filled. auto. Qed.
(** ** C70 *)
(** A point at which check_KKT reports nothing is optimal up to the tolerance; at tolerance 0, optimal. *)
Theorem C70_sound : forall labels f given g s lam tol, let w := group_weight given labels in convex_on (length labels) f -> is_gradient (length labels) f s g -> length s = length labels -> (forall h, In h labels -> 0 <= w h) -> 0 < lam -> 0 <= tol ->
  passes (g_check labels given g s lam tol) -> forall v, length v = length labels ->
  group_objective labels f w lam s <= group_objective labels f w lam v + tol * vsum (map (fun h => group_slack labels w lam (mean_group_weight labels w) s h * norm (block labels h (vsub v s))) (distinct labels)).
Proof. exact gkkt_sound. Qed.
Print Assumptions C70_sound.
(** At a minimizer nothing is reported, at any tolerance. *)
Theorem C70_complete : forall labels f given g s lam tol, let w := group_weight given labels in is_gradient (length labels) f s g -> length s = length labels -> (forall h, In h labels -> 0 <= w h) -> 0 < lam -> 0 <= tol ->
  (forall v, length v = length labels -> group_objective labels f w lam s <= group_objective labels f w lam v) -> passes (g_check labels given g s lam tol).
Proof. exact gkkt_complete. Qed.
Print Assumptions C70_complete.
(** The null solution is optimal from the first value of the default sequence on, and for no smaller value. *)
Theorem C70_lambda_max : forall grad func X groups given enet alpha, let B := gq_base (group_path grad func X groups given enet alpha) in let w := group_weight given groups in good_path B -> length groups = lp_size B ->
  forall s prop nstep ls lam, group_null B groups w s -> (exists h, In h groups /\ 0 < w h) -> (2 <= nstep)%nat -> g_lagrange_sequence groups given (path_gradient B s (t_lin X s) 1) prop nstep alpha = Ok ls -> nth 0 ls 0 <= lam -> 0 < lam ->
  forall v, length v = lp_size B -> gpath_objective B groups w lam s <= gpath_objective B groups w lam v.
Proof. intros grad func X groups given enet alpha B w GP LG. exact (gnull_optimal B groups given GP LG (path_weights _ _ _ _ _ _ _)). Qed.
Print Assumptions C70_lambda_max.
Theorem C70_lambda_max_sharp : forall grad func X groups given enet alpha, let B := gq_base (group_path grad func X groups given enet alpha) in let w := group_weight given groups in good_path B -> length groups = lp_size B ->
  forall s prop nstep ls lam, group_null B groups w s -> (exists h, In h groups /\ 0 < w h /\ norm (block groups h (path_gradient B s (t_lin X s) 1)) <> 0) -> 0 < prop < 1 -> (2 <= nstep)%nat ->
  g_lagrange_sequence groups given (path_gradient B s (t_lin X s) 1) prop nstep alpha = Ok ls -> 0 < lam < nth 0 ls 0 -> ~ forall v, length v = lp_size B -> gpath_objective B groups w lam s <= gpath_objective B groups w lam v.
Proof. intros grad func X groups given enet alpha B w GP LG. exact (gnull_not_optimal B groups given GP LG (path_weights _ _ _ _ _ _ _)). Qed.
Print Assumptions C70_lambda_max_sharp.
(** nstep values, positive, strictly decreasing, from the largest ||g_h|| / w_h over alpha down to the given proportion of it; and what happens
    when every weight is zero. *)
Theorem C70_sequence : forall labels given g prop nstep alpha ls, length g = length labels -> (exists h, In h labels /\ 0 < group_weight given labels h /\ norm (block labels h g) <> 0) -> 0 < prop < 1 -> (2 <= nstep)%nat -> 0 < alpha ->
  g_lagrange_sequence labels given g prop nstep alpha = Ok ls ->
  length ls = nstep /\ (forall i, (S i < nstep)%nat -> 0 < nth (S i) ls 0 < nth i ls 0) /\ nth (nstep - 1) ls 0 = prop * nth 0 ls 0 /\
  (forall h, In h labels -> 0 < group_weight given labels h -> norm (block labels h g) <= alpha * nth 0 ls 0 * group_weight given labels h) /\
  exists h, In h labels /\ 0 < group_weight given labels h /\ norm (block labels h g) = alpha * nth 0 ls 0 * group_weight given labels h.
Proof. exact gsequence_shape. Qed.
Print Assumptions C70_sequence.
Theorem C70_ranks : forall labels given grad s lam tol j, (j < length (g_ids labels))%nat -> let e := fun i => g_inactive_term labels given grad s lam (nth i (g_ids labels) 0%Z) in
  nth j (snd (g_check labels given grad s lam tol)) 0 = if Rle_dec (e j) (1 + tol) then -1 else place (length (g_ids labels)) e j.
Proof. exact granks_are_places. Qed.
Print Assumptions C70_ranks.
(** A group is kept by the strong rule when ||g_h|| > (2 new - cur) w_h; without weight, when it has a gradient *)
Theorem C70_strong : forall labels given grad lcur lnew i, (i < length (g_ids labels))%nat -> let g := nth i (g_ids labels) 0%Z in
  nth i (g_strong labels given grad lcur lnew) false = true <->
  (0 < group_weight given labels g /\ (2 * lnew - lcur) * group_weight given labels g < norm (block labels g grad)) \/ (group_weight given labels g <= 0 /\ (norm (block labels g grad) <> 0 \/ 2 * lnew - lcur < 0)).
Proof. exact strong_meaning. Qed.
Print Assumptions C70_strong.
(** A path for a subsample of the cases has the same weights, screening and check. *)
Theorem C70_subsample : forall grad func X groups given enet alpha, let S := group_subsample grad func X groups given enet alpha in let P := group_path grad func X groups given enet alpha in
  lp_weights (gq_base S) = lp_weights (gq_base P) /\ (forall g c n, gq_strong S g c n = gq_strong P g c n) /\ forall v g s l, gq_check S v g s l = gq_check P v g s l.
Proof. exact group_subsample_keeps. Qed.
Print Assumptions C70_subsample.
(** two features, one group *)
Example C70_instance : let B := gq_base pair_path in good_path B /\ length [1; 1]%Z = lp_size B /\ group_null B [1; 1]%Z (group_weight pair_given [1; 1]%Z) [0; 0] /\
  path_gradient B [0; 0] (t_lin (lp_X B) [0; 0]) 1 = [-6; -8] /\ norm (block [1; 1]%Z 1 [-6; -8]) = 10 /\ exists ls, g_lagrange_sequence [1; 1]%Z pair_given [-6; -8] (/ 2) 3 1 = Ok ls.
Proof.
  intros B. split; [exact pair_good|]. split; [reflexivity|]. split.
  - split; [reflexivity|]. split; [intros g [<-|[<-|[]]] _; change (block [1; 1]%Z 1 [0; 0]) with (zeros 2); apply norm_zeros|]. intros g _ H. rewrite pair_weight in H. lra.
  - assert (G : path_gradient B [0; 0] (t_lin (lp_X B) [0; 0]) 1 = [-6; -8]) by (unfold B; rewrite pair_gradient; f_equal; [lra|f_equal; lra]). split; [exact G|]. assert (N : norm (block [1; 1]%Z 1 [-6; -8]) = 10). { change (block [1; 1]%Z 1 [-6; -8]) with [-6; -8]. unfold norm. replace (sqn [-6; -8]) with (10 * 10) by (unfold sqn, dot, vsum; cbn; lra). apply sqrt_square. lra. }
    split; [exact N|]. unfold g_lagrange_sequence. assert (D := dual_value [1; 1]%Z pair_given [-6; -8] eq_refl). destruct D as (m & E & _); [exists 1%Z; split; [left; auto|rewrite pair_weight; lra]|]. rewrite E. cbn [rbind]. eauto.
Qed.

(** ** C71 *)
(** From the zero solution: one point per value; every reported solution is the solver's answer for the features of the final groups, zero
    elsewhere; without a warning no group at zero fails the check there, and with check_active no group at all. *)
Theorem C71_accepted : forall grad func X groups given enet alpha, let P := group_path grad func X groups given enet alpha in let B := gq_base P in good_path B -> length groups = lp_size B ->
  forall S chk max_tries fuel l0 ls g pts, right_size S -> group_strong_rules fuel P S chk max_tries (l0 :: ls) (zeros (lp_size B)) g = Ok pts ->
  map gp_lagrange pts = ls /\ Forall (fun pt => let check := g_check groups (filled given groups) (path_gradient B (gp_beta pt) (t_lin X (gp_beta pt)) (gp_lagrange pt)) (gp_beta pt) (alpha * gp_lagrange pt) kkt_tol in
    group_restricted P S pt /\ (gp_warned pt = false -> inactive_passes check /\ (chk = true -> passes check)) /\ (gp_warned pt = true -> (max_tries <= gp_tries pt)%nat)) pts.
Proof.
  intros grad func X groups given enet alpha P B GP LG S chk max_tries fuel l0 ls g pts RS E. destruct (gpath_spec P GP LG S chk max_tries fuel ls l0 _ pts RS (gstart_ok P g) E) as (A & F). split; auto. apply Forall_impl with (2 := F). intros pt (H1 & H2 & H3). split; auto. split; auto. intros W. exact (gaccepted_passes _ _ _ _ _ _ _ LG chk pt (H2 W)).
Qed.
Print Assumptions C71_accepted.
(** It always ends, whatever the solver answers; the number of inner solves is max_tries when that is a positive multiple of 5, and at most
    four more otherwise. *)
Theorem C71_ends_partial : forall grad func X groups given enet alpha, let P := group_path grad func X groups given enet alpha in
  forall S chk max_tries fuel lseq sol g, (Nat.max 1 max_tries + 4 <= fuel)%nat -> exists pts, group_strong_rules fuel P S chk max_tries lseq sol g = Ok pts /\
  Forall (fun pt => (gp_tries pt <= Nat.max 1 max_tries + 4)%nat /\ forall k, (0 < k)%nat -> max_tries = (5 * k)%nat -> (gp_tries pt <= max_tries)%nat) pts.
Proof.
  intros grad func X groups given enet alpha P S chk max_tries fuel lseq sol g Hf. assert (B := bound_le max_tries). destruct lseq as [|l0 ls]; [exists []; split; [reflexivity|constructor]|]. destruct (gpath_ends P ltac:(intros; eexists; reflexivity) S chk max_tries fuel ls l0 (gstart P sol g) ltac:(lia)) as (pts & E & F). exists pts. split; [exact E|]. apply Forall_impl with (2 := F). intros pt H. split; [lia|]. intros k Hk Em. assert (bound max_tries = max_tries); [|lia]. unfold bound. rewrite Nat.max_r by lia. subst max_tries. rewrite (Nat.mul_comm 5 k), Nat.div_add_l by lia. cbn. lia.
Qed.
Print Assumptions C71_ends_partial.
(** With an exact solver and k groups at most k + 1 solves are made per value, and no warning is given if max_tries > k. *)
Theorem C71_exact : forall grad func X groups given enet alpha, let P := group_path grad func X groups given enet alpha in let B := gq_base P in let w := group_weight given groups in good_path B -> length groups = lp_size B ->
  forall S chk max_tries fuel l0 ls g pts, right_size S -> exact_group_solver B groups w S -> Forall (fun l => 0 < l) ls -> group_strong_rules fuel P S chk max_tries (l0 :: ls) (zeros (lp_size B)) g = Ok pts ->
  Forall (fun pt => (gp_tries pt <= length (distinct groups) + 1)%nat /\ (gp_warned pt = true -> (max_tries <= length (distinct groups))%nat) /\ group_solves B groups w (gp_lagrange pt) (gp_set pt) (gp_sub pt)) pts.
Proof.
  intros grad func X groups given enet alpha P B w GP LG S chk max_tries fuel l0 ls g pts RS XS Pl E. rewrite <- (Permutation_length (ids_perm groups)). refine (gpath_exact _ _ _ _ _ _ _ GP LG S chk max_tries fuel RS XS ls l0 _ pts Pl (gstart_ok P g) _ _ E); [apply repeat_length|constructor].
Qed.
Print Assumptions C71_exact.
(** All groups outside the final set penalized: what passes is nearly optimal, if the restricted problem was solved exactly. *)
Theorem C71_optimal : forall grad func X groups given enet alpha, let B := gq_base (group_path grad func X groups given enet alpha) in let w := group_weight given groups in good_path B -> length groups = lp_size B ->
  forall lam set b v, 0 < lam -> group_solves B groups w lam set b -> (forall g, In g groups -> ~ In g set -> 0 < w g) -> let s := embed (lp_size B) (features groups set) b in
  inactive_passes (g_check groups (filled given groups) (path_gradient B s (t_lin X s) lam) s (alpha * lam) kkt_tol) -> length v = lp_size B ->
  gpath_objective B groups w lam s <= gpath_objective B groups w lam v + kkt_tol * (alpha * lam * group_penalty groups w v).
Proof. intros grad func X groups given enet alpha B w GP LG. exact (gnearly_optimal grad func X groups given enet alpha GP LG). Qed.
Print Assumptions C71_optimal.
(** By default a group without weight is in no subproblem, ... *)
Theorem C71_free_refuted : forall grad func X groups given enet alpha, let P := group_path grad func X groups given enet alpha in length groups = lp_size (gq_base P) ->
  forall S max_tries fuel lseq sol g pts, group_strong_rules fuel P S false max_tries lseq sol g = Ok pts -> Forall (fun pt => forall h, In h (gp_set pt) -> group_weight given groups h <> 0) pts.
Proof.
  intros grad func X groups given enet alpha P LG S max_tries fuel [|l0 ls] sol g pts E; [apply Ok_inj in E; subst; constructor|]. refine (gnever_free _ _ _ _ _ _ _ S max_tries fuel ls l0 _ pts LG _ E). apply gstart_free.
Qed.
Print Assumptions C71_free_refuted.
(** ... and the point accepted without a warning can be worse than the null solution: x1 = x2 = 1, y = 2, groups of one feature, weights 0, 1. *)
Theorem C71_worse_refuted : let w := group_weight gfree_given [1; 2]%Z in let B := gq_base gfree_path in good_path B /\ forall fuel, exists pt, group_strong_rules (2 + fuel) gfree_path free_solver false 20 [1; / 2] [2; 0] [0; 0] = Ok [pt] /\ gp_warned pt = false /\ gp_beta pt = [2; 3 / 2] /\
  group_solves B [1; 2]%Z w (/ 2) (gp_set pt) (gp_sub pt) /\ group_null B [1; 2]%Z w [2; 0] /\ gpath_objective B [1; 2]%Z w (/ 2) [2; 0] < gpath_objective B [1; 2]%Z w (/ 2) (gp_beta pt).
Proof. split; [exact free_good|exact gfree_wrong]. Qed.
Print Assumptions C71_worse_refuted.
Example C71_instance : let B := gq_base pair_path in good_path B /\ length [1; 1]%Z = lp_size B /\ exact_group_solver B [1; 1]%Z (group_weight pair_given [1; 1]%Z) pair_solver /\ right_size pair_solver /\
  exists pts, group_strong_rules 24 pair_path pair_solver false 20 [10; 5; 1] (zeros (lp_size B)) [-6; -8] = Ok pts /\ length pts = 2%nat.
Proof.
  intros B. split; [exact pair_good|]. split; [reflexivity|]. destruct pair_exact as (A & RS). split; auto. split; auto. destruct (C71_ends_partial _ _ _ _ _ _ _ pair_solver false 20 24 [10; 5; 1] (zeros (lp_size B)) [-6; -8] ltac:(cbn; lia) : exists pts, group_strong_rules 24 pair_path pair_solver false 20 [10; 5; 1] (zeros (lp_size B)) [-6; -8] = Ok pts /\ _) as (pts & E & _). exists pts. split; auto.
  destruct (C71_accepted _ _ _ _ _ _ _ pair_good eq_refl pair_solver false 20 24 10 [5; 1] [-6; -8] pts RS E) as (L & _). apply (f_equal (@length R)) in L. rewrite map_length in L. exact L.
Qed.

(** ** C72 *)
(** The check at the zero solution: what passes is optimal for weights enlarged by the tolerances, ... *)
Theorem C72_null_sound_partial : forall labels lw given grad lam tol fuel, let w := group_weight given labels in length lw = length labels -> length grad = length labels -> Forall (fun r => 0 <= r) lw -> (forall h, In h labels -> 0 <= w h) ->
  (forall h, In h labels -> 0 < vsum (block labels h lw) + w h) -> (20 < fuel)%nat -> 0 < lam -> forall f, is_gradient (length labels) f (zeros (length labels)) grad -> convex_on (length labels) f -> 0 <= tol < 2 -> (1 / 2) ^ 50 <= lam ->
  forall r v, sg_check labels lw given grad (zeros (length labels)) lam tol fuel = Ok r -> passes r -> length v = length labels ->
  f (zeros (length labels)) <= f v + lam * (1 + tol) * (1 + 2 / 10 ^ 6) * sparse_penalty labels lw (fun g => w g + / 10 ^ 5) v.
Proof. exact sg_null_sound. Qed.
Print Assumptions C72_null_sound_partial.
(** ... and when zero is the minimizer nothing is reported. *)
Theorem C72_null_complete_partial : forall labels lw given grad lam tol fuel, let w := group_weight given labels in length lw = length labels -> length grad = length labels -> Forall (fun r => 0 <= r) lw -> (forall h, In h labels -> 0 <= w h) ->
  (forall h, In h labels -> 0 < vsum (block labels h lw) + w h) -> (20 < fuel)%nat -> 0 < lam -> forall f, is_gradient (length labels) f (zeros (length labels)) grad -> 2 / 10 ^ 6 <= tol < 2 -> lam <= 2 ^ 50 ->
  (forall v, length v = length labels -> f (zeros (length labels)) <= f v + lam * sparse_penalty labels lw w v) ->
  exists r, sg_check labels lw given grad (zeros (length labels)) lam tol fuel = Ok r /\ passes r.
Proof. exact sg_null_complete. Qed.
Print Assumptions C72_null_complete_partial.
Example C72_null_instance : let f := half_sq 1 in is_gradient 1 f (zeros 1) [-1] /\ convex_on 1 f /\ (forall v, length v = 1%nat -> f (zeros 1) <= f v + 2 * sparse_penalty [1%Z] [/ 4] (group_weight (lone (/ 4)) [1%Z]) v).
Proof.
  intros f. split; [|split; [apply half_sq_convex|]].
  - replace [-1] with [0 - 1] by (f_equal; lra). apply half_sq_gradient.
  - intros [|v [|]] Lv; try discriminate. change (group_weight (lone (/ 4)) [1%Z]) with (fun _ : Z => / 4). rewrite one_penalty. unfold f, half_sq, zeros. cbn [repeat vsub vzip]. unfold sqn, dot, vsum. cbn [vmul vzip fold_right]. assert (A := Rle_abs v). assert (0 <= v * v) by apply Rle_0_sqr. lra.
Qed.
(** With feature weights at least c > 0 and a positive weight for every group, a point that passes is optimal up to an explicit error per group, ... *)
Theorem C72_sound_partial : forall labels lw given grad s lam tol fuel c f r v, let w := group_weight given labels in length lw = length labels -> length s = length labels -> length v = length labels -> (20 < fuel)%nat ->
  0 < c -> Forall (fun a => c <= a) lw -> (forall h, In h labels -> 0 < w h /\ norm (block labels h lw) <= 10 ^ 5 * w h) -> (1 / 2) ^ 50 <= lam -> 0 <= tol < 1 ->
  convex_on (length labels) f -> is_gradient (length labels) f s grad -> sg_check labels lw given grad s lam tol fuel = Ok r -> passes r ->
  f s + lam * sparse_penalty labels lw w s <= f v + lam * sparse_penalty labels lw w v + vsum (map (sparse_error labels lw w c lam tol s v) (distinct labels)).
Proof. exact sg_sound. Qed.
Print Assumptions C72_sound_partial.
(** ... and when the error of the dual norms is below the tolerance, nothing is reported at a minimizer, zero or not. *)
Theorem C72_complete_partial : forall labels lw given grad s lam tol fuel f, let w := group_weight given labels in length lw = length labels -> length s = length labels -> (20 < fuel)%nat -> Forall (fun a => 0 <= a) lw ->
  (forall h, In h labels -> resolved (block labels h lw) (w h) lam tol) -> (1 / 2) ^ 49 <= lam <= 2 ^ 50 -> 2 / 10 ^ 6 <= tol < 2 -> is_gradient (length labels) f s grad ->
  (forall v, length v = length labels -> f s + lam * sparse_penalty labels lw w s <= f v + lam * sparse_penalty labels lw w v) ->
  exists r, sg_check labels lw given grad s lam tol fuel = Ok r /\ passes r.
Proof. exact sg_complete. Qed.
Print Assumptions C72_complete_partial.
(** one feature with weights 1 and 1, response 3: the minimizer is 1 *)
Example C72_complete_instance : is_gradient 1 (half_sq 3) [1] [1 - 3] /\ resolved (block [1%Z] 1 [1]) (group_weight (lone 1) [1%Z] 1) 1 kkt_tol /\
  (forall v, length v = 1%nat -> half_sq 3 [1] + 1 * sparse_penalty [1%Z] [1] (group_weight (lone 1) [1%Z]) [1] <= half_sq 3 v + 1 * sparse_penalty [1%Z] [1] (group_weight (lone 1) [1%Z]) v) /\
  (norm (block [1%Z] 1 [1]) <= 10 ^ 5 * group_weight (lone 1) [1%Z] 1) /\
  exists r, sg_check [1%Z] [1] (lone 1) [1 - 3] [1] 1 kkt_tol 30 = Ok r /\ passes r.
Proof.
  assert (R : resolved [1] 1 1 kkt_tol). { unfold resolved, resolution, kkt_tol. rewrite norm1', Rabs_R1. lra. }
  assert (M : forall v, length v = 1%nat -> half_sq 3 [1] + 1 * sparse_penalty [1%Z] [1] (fun _ => 1) [1] <= half_sq 3 v + 1 * sparse_penalty [1%Z] [1] (fun _ => 1) v).
  { intros [|v [|]] Lv; try discriminate. rewrite !one_penalty. unfold half_sq. cbn [vsub vzip]. unfold sqn, dot, vsum. cbn [vmul vzip fold_right]. rewrite Rabs_R1. assert (A := Rle_abs v). assert (0 <= (v - 1) * (v - 1)) by apply Rle_0_sqr. lra. }
  change (block [1%Z] 1 [1]) with [1]. change (group_weight (lone 1) [1%Z]) with (fun _ : Z => 1). split; [apply half_sq_gradient|]. split; auto. split; auto. split; [rewrite norm1', Rabs_R1; lra|].
  assert (P := pow_lt 2 49 ltac:(lra)). apply (sg_complete [1%Z] [1] (lone 1) [1 - 3] [1] 1 kkt_tol 30 (half_sq 3)); auto; try lia.
  - constructor; [lra|constructor].
  - intros h [<-|[]]. exact R.
  - split; [|assert (1 <= 2 ^ 50) by (apply pow_R1_Rle; lra); lra]. assert (H : (1 / 2) ^ 49 <= 1 ^ 49) by (apply pow_incr; lra). rewrite pow1 in H. exact H.
  - unfold kkt_tol. lra.
  - apply half_sq_gradient.
Qed.
(** Off zero the check can pass with a gradient a hundred times too large, at a point 4900 above a better one: one feature, no l1 weight. *)
Theorem C72_sound_refuted : forall fuel, (20 < fuel)%nat -> exists r, sg_check [1%Z] [0] (lone 1) [-100] [1] 1 kkt_tol fuel = Ok r /\ passes r /\ is_gradient 1 (half_sq 101) [1] [-100] /\ convex_on 1 (half_sq 101) /\
  half_sq 101 [100] + 1 * sparse_penalty [1%Z] [0] (fun _ => 1) [100] < half_sq 101 [1] + 1 * sparse_penalty [1%Z] [0] (fun _ => 1) [1] - 4900.
Proof. intros fuel Hf. destruct (sg_sound_wrong fuel Hf) as (r & A & B & C & D). exists r. split; auto. split; auto. split; auto. split; auto. apply half_sq_convex. Qed.
Print Assumptions C72_sound_refuted.
(** ... and it can report a minimizer: one feature, weight 2/10^6. *)
Theorem C72_complete_refuted : forall fuel, (20 < fuel)%nat -> let y := 1 + 2 / 10 ^ 6 in let w := 2 / 10 ^ 6 in
  exists r, sg_check [1%Z] [0] (lone w) [- w] [1] 1 kkt_tol fuel = Ok r /\ ~ passes r /\ is_gradient 1 (half_sq y) [1] [- w] /\
  forall v, length v = 1%nat -> half_sq y [1] + 1 * sparse_penalty [1%Z] [0] (fun _ => w) [1] <= half_sq y v + 1 * sparse_penalty [1%Z] [0] (fun _ => w) v.
Proof. exact sg_complete_wrong. Qed.
Print Assumptions C72_complete_refuted.
(** A group off zero with no gradient is a TypeError, ... *)
Theorem C72_flat_refuted : forall labels lw given grad s lam tol fuel g n r, length lw = length labels -> length grad = length labels -> Forall (fun r => 0 <= r) lw -> 0 <= group_weight given labels g -> (20 < fuel)%nat -> In g labels ->
  / 10 ^ 6 * norm s < norm (block labels g s) * group_weight given labels g + vsum (vabs (vmul (block labels g s) (block labels g lw))) -> block labels g grad = zeros n ->
  sg_one labels lw given grad s lam tol fuel g = Err TypeError /\ sg_check labels lw given grad s lam tol fuel <> Ok r.
Proof. exact sg_flat_raises. Qed.
Print Assumptions C72_flat_refuted.
Example C72_flat_instance : / 10 ^ 6 * norm [1] < norm (block [1%Z] 1 [1]) * group_weight (lone 1) [1%Z] 1 + vsum (vabs (vmul (block [1%Z] 1 [1]) (block [1%Z] 1 [0]))) /\ block [1%Z] 1 [0] = zeros 1.
Proof. split; [|reflexivity]. change (block [1%Z] 1 [1]) with [1]. change (block [1%Z] 1 [0]) with [0]. change (group_weight (lone 1) [1%Z] 1) with 1. rewrite norm1', Rabs_R1. unfold vsum, vabs. cbn. rewrite Rmult_0_r, Rabs_R0. lra. Qed.
(** ... a group without penalty always fails, so no value of such a path is accepted, ... *)
Theorem C72_free_refuted : forall grad func X groups lw given enet alpha l1_alpha fuel0, let P := sparse_group_path grad func X groups lw given enet alpha l1_alpha fuel0 in
  good_path (gq_base P) -> length groups = lp_size (gq_base P) -> length lw = length groups -> forall S chk max_tries fuel lseq g pts h n, right_size S -> In h groups -> group_weight given groups h = 0 -> block groups h lw = zeros n ->
  group_strong_rules fuel P S chk max_tries lseq (zeros (lp_size (gq_base P))) g = Ok pts -> Forall (fun pt => gp_warned pt = true) pts.
Proof. intros grad func X groups lw given enet alpha l1_alpha fuel0 P GP LG Ll S chk max_tries fuel lseq g pts h n RS Hh W Z E. exact (sparse_never grad func X groups lw given enet alpha l1_alpha fuel0 S chk max_tries fuel lseq g pts h n GP LG Ll RS Hh W Z E). Qed.
Print Assumptions C72_free_refuted.
Example C72_free_instance : let P := sparse_group_path (fun v => vsub v [1]) (fun v => / 2 * sqn (vsub v [1])) (matrix [[1]] 1 None) [1%Z] [0] (lone 0) [0] 1 (1 / 2) 30 in
  good_path (gq_base P) /\ length [1%Z] = lp_size (gq_base P) /\ group_weight (lone 0) [1%Z] 1 = 0 /\ block [1%Z] 1 [0] = zeros 1.
Proof.
  intros P. split; [|repeat split; reflexivity]. change (gq_base P) with (gauss_path [[1]] 1 [1] [0] [0] 1). apply gauss_good; auto; try lra; repeat constructor; lra.
Qed.
(** ... and the groups reported as unpenalized are others. *)
Theorem C72_unpenalized_refuted : forall groups lw given g, In g (sg_unpenalized groups lw given) <-> In g groups /\ ((group_weight given groups g = 0 /\ Forall (fun a => a <> 0) (block groups g lw)) \/ (group_weight given groups g = 1 /\ Exists (fun a => a = 0) (block groups g lw))).
Proof. exact sg_unpenalized_iff. Qed.
Print Assumptions C72_unpenalized_refuted.
Example C72_unpenalized_instance : sg_unpenalized [1; 2]%Z [0; 0] (fun g => if Z.eqb g 1 then Some 0 else Some 1) = [2%Z].
Proof.
  unfold sg_unpenalized. change (g_ids [1; 2]%Z) with [1; 2]%Z. cbn [filter]. unfold sg_unpenalized_group. cbn. replace (is0 0) with true by (symmetry; apply is0_true; auto). cbn [orb]. replace (is0 (0 - 1)) with false by (symmetry; apply is0_false; lra). replace (is0 (1 - 1)) with true by (symmetry; apply is0_true; lra). reflexivity.
Qed.
(** Screening keeps the groups whose gradient is outside 2 new - cur times the dual ball of their penalty, the weight raised by 10^-5. *)
Theorem C72_strong : forall labels lw given grad lcur lnew i, length lw = length labels -> length grad = length labels -> Forall (fun r => 0 <= r) lw -> (forall h, In h labels -> 0 <= group_weight given labels h) ->
  (i < length (g_ids labels))%nat -> let g := nth i (g_ids labels) 0%Z in
  nth i (sg_strong labels lw given grad lcur lnew) false = true <->
  2 * lnew - lcur < 0 \/ ~ dual_ball (length (block labels g grad)) (one_group (block labels g lw) (group_weight given labels g + / 10 ^ 5)) (2 * lnew - lcur) (block labels g grad).
Proof. exact sg_strong_meaning. Qed.
Print Assumptions C72_strong.
(** The ridge term is never multiplied by the Lagrange parameter ... *)
Theorem C72_ridge_refuted : forall grad func X groups lw given enet alpha l1_alpha fuel s z lam lam', let P := sparse_group_path grad func X groups lw given enet alpha l1_alpha fuel in
  path_gradient (gq_base P) s z lam = path_gradient (gq_base P) s z lam'.
Proof. exact sg_ridge. Qed.
Print Assumptions C72_ridge_refuted.
(** ... and a path for a subsample of the cases has its weights scaled twice: a group screened out there is kept here. *)
Theorem C72_subsample_refuted : forall grad func X enet alpha fuel,
  gq_strong (sparse_group_path grad func X [1%Z] [0] (lone 1) enet alpha (1 / 2) fuel) [4 / 10] 1 1 = [false] /\
  gq_strong (sparse_group_subsample grad func X [1%Z] [0] (lone 1) enet alpha (1 / 2) fuel) [4 / 10] 1 1 = [true].
Proof. exact sg_subsample_wrong. Qed.
Print Assumptions C72_subsample_refuted.
(** The loop: one point per value, each the solver's answer for the features of the final groups, zero elsewhere; without a warning no group at zero fails
    the check there, and with check_active no group at all. *)
Theorem C72_accepted : forall grad func X groups lw given enet alpha l1_alpha fuel0, let P := sparse_group_path grad func X groups lw given enet alpha l1_alpha fuel0 in let B := gq_base P in good_path B -> length groups = lp_size B -> length lw = length groups ->
  forall S chk max_tries fuel l0 ls g pts, right_size S -> group_strong_rules fuel P S chk max_tries (l0 :: ls) (zeros (lp_size B)) g = Ok pts ->
  map gp_lagrange pts = ls /\ Forall (fun pt => group_restricted P S pt /\ (gp_warned pt = true -> (max_tries <= gp_tries pt)%nat) /\
    (gp_warned pt = false -> exists r, sg_check groups (map (fun a => a * l1_alpha) lw) (sg_weights groups given l1_alpha) (path_gradient B (gp_beta pt) (t_lin X (gp_beta pt)) (gp_lagrange pt)) (gp_beta pt) (alpha * gp_lagrange pt) kkt_tol fuel0 = Ok r /\ inactive_passes r /\ (chk = true -> passes r))) pts.
Proof.
  intros grad func X groups lw given enet alpha l1_alpha fuel0 P B GP LG Ll S chk max_tries fuel l0 ls g pts RS E. destruct (gpath_spec P GP LG S chk max_tries fuel ls l0 _ pts RS (gstart_ok P g) E) as (A & F). split; auto. apply Forall_impl with (2 := F). intros pt (H1 & H2 & H3). split; auto. split; auto. intros W. destruct (H2 W) as (r & Er & Hr).
  cbn [gq_check P sparse_group_path] in Er. fold B in Er. rewrite <- LG, labels_all in Er. replace (length groups) with (length (sg_lasso lw l1_alpha)) in Er by (unfold sg_lasso; rewrite map_length; auto). rewrite gather_all in Er. exists r. split; [exact Er|]. apply sg_failing_none in Hr; auto. apply (sg_check_lengths _ _ _ _ _ _ _ _ _ Er).
Qed.
Print Assumptions C72_accepted.
(** What passes on the groups outside the set is nearly optimal, if the restricted problem was solved exactly: up to the tolerance, the error 2e-6 of the
    dual norms and the 1e-5 they add to the weight of a group. *)
Theorem C72_optimal : forall grad func X groups lw given enet alpha l1_alpha fuel0, let P := sparse_group_path grad func X groups lw given enet alpha l1_alpha fuel0 in let B := gq_base P in let a := map (fun x => x * l1_alpha) lw in let w := group_weight (sg_weights groups given l1_alpha) groups in
  good_path B -> length groups = lp_size B -> length lw = length groups -> (20 < fuel0)%nat -> Forall (fun x => 0 <= x) a -> (forall h, In h groups -> 0 <= w h) ->
  forall lam set b r v, 0 < lam -> (1 / 2) ^ 50 <= alpha * lam -> sparse_solves B groups a w lam set b -> let s := embed (lp_size B) (features groups set) b in
  sg_check groups a (sg_weights groups given l1_alpha) (path_gradient B s (t_lin X s) lam) s (alpha * lam) kkt_tol fuel0 = Ok r -> inactive_passes r -> length v = lp_size B ->
  smooth_part B lam s + alpha * lam * sparse_penalty groups a w s <= smooth_part B lam v + alpha * lam * ((1 + kkt_tol) * (1 + 2 / 10 ^ 6)) * sparse_penalty groups a (fun g => w g + / 10 ^ 5) v.
Proof. exact sparse_optimal. Qed.
Print Assumptions C72_optimal.
