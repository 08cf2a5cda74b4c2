(** C45, C46, C47, C49: the lasso path. *)
From Coq Require Import Reals List Lra Lia Arith Bool.
From Verif Require Import M_affine SpecAffine P_affine P_affine2 M_loss SpecLoss SpecSmooth P_smooth Vec Spec SpecConvex M_quad M_prox M_semi M_weighted P_quad P_calc P_sep P_feas M_problem M_cv SpecCv P_cv M_path SpecPath P_path P_path2 P_path3 P_path4 P_path5 P_path6 P_path7.
Import ListNotations.
Local Open Scope R_scope.

(** ** C45 *)
(** Some feature is penalized. A point at which check_KKT reports nothing is optimal up to the tolerance; at tolerance 0, optimal. *)
Theorem C45_sound_partial : forall n f w g s lam tol m, convex_on n f -> is_gradient n f s g -> length s = n -> length w = n -> nonneg w -> 0 < lam -> 0 <= tol -> mean_weight w = Some m -> passes (check_KKT w g s lam tol) ->
  forall v, length v = n -> lasso_objective n f w lam s <= lasso_objective n f w lam v + tol * sum_over n (fun j => slack w lam m j * Rabs (nth j v 0 - nth j s 0)).
Proof. exact kkt_sound. Qed.
Print Assumptions C45_sound_partial.
(** At a minimizer nothing is reported, at any tolerance. *)
Theorem C45_complete : forall n f w g s lam tol, is_gradient n f s g -> length s = n -> length w = n -> nonneg w -> 0 < lam -> 0 <= tol -> (forall v, length v = n -> lasso_objective n f w lam s <= lasso_objective n f w lam v) ->
  passes (check_KKT w g s lam tol).
Proof. exact kkt_complete. Qed.
Print Assumptions C45_complete.
(** Without a penalized feature nothing is ever reported, wherever the point is. *)
Theorem C45_refuted : forall g s lam tol, 0 <= tol -> passes (check_KKT (zeros (length s)) g s lam tol).
Proof. exact kkt_blind. Qed.
Print Assumptions C45_refuted.
Example C45_unnoticed : passes (check_KKT (zeros (length [0])) [- 10] [0] 1 0) /\ is_gradient 1 (smooth_part (one_path 10) 1) [0] [- 10] /\ smooth_part (one_path 10) 1 [10] < smooth_part (one_path 10) 1 [0].
Proof.
  split; [apply kkt_blind; lra|]. split.
  - assert (G := path_gradient_right (one_path 10) (one_good 10) 1 [0] eq_refl). rewrite one_gradient in G. replace (0 - 10) with (- 10) in G by lra. exact G.
  - assert (A := one_objective 10 1 10). assert (B := one_objective 10 1 0). unfold path_objective, lasso_objective in A, B. cbn [lp_size one_path gauss_path lp_X matrix t_in lp_weights lp_alpha] in A, B. unfold sum_over in A, B. cbn [seq map fold_right nth] in A, B. unfold vsum in A, B. cbn [fold_right] in A, B. rewrite Rabs_R0 in B. rewrite (Rabs_right 10) in A by lra. lra.
Qed.
(** The gradient the check is given along a path is the gradient of the smooth part of the elastic net, which is convex. *)
Theorem C45_gradient : forall P, good_path P -> forall lam v, length v = lp_size P -> is_gradient (lp_size P) (smooth_part P lam) v (path_gradient P v (t_lin (lp_X P) v) lam) /\ (0 <= lam -> convex_on (lp_size P) (smooth_part P lam)).
Proof. intros P GP lam v Lv. split; [exact (path_gradient_right P GP lam v Lv)|exact (smooth_convex P GP lam)]. Qed.
Print Assumptions C45_gradient.
(** The null solution is optimal from the first value of the default sequence on, and for no smaller value. *)
Theorem C45_lambda_max : forall P, good_path P -> forall s prop nstep ls lam, null_solution P s -> (exists j, (j < lp_size P)%nat /\ 0 < nth j (lp_weights P) 0) -> (2 <= nstep)%nat ->
  default_lagrange_sequence (lp_weights P) (path_gradient P s (t_lin (lp_X P) s) 1) prop nstep (lp_alpha P) = Ok ls -> nth 0 ls 0 <= lam -> 0 < lam -> forall v, length v = lp_size P -> path_objective P lam s <= path_objective P lam v.
Proof. exact null_optimal. Qed.
Print Assumptions C45_lambda_max.
Theorem C45_lambda_max_sharp : forall P, good_path P -> forall s prop nstep ls lam, null_solution P s -> (exists j, (j < lp_size P)%nat /\ 0 < nth j (lp_weights P) 0 /\ nth j (path_gradient P s (t_lin (lp_X P) s) 1) 0 <> 0) -> 0 < prop < 1 -> (2 <= nstep)%nat ->
  default_lagrange_sequence (lp_weights P) (path_gradient P s (t_lin (lp_X P) s) 1) prop nstep (lp_alpha P) = Ok ls -> 0 < lam < nth 0 ls 0 -> ~ forall v, length v = lp_size P -> path_objective P lam s <= path_objective P lam v.
Proof. exact null_not_optimal. Qed.
Print Assumptions C45_lambda_max_sharp.
(** The sequence: nstep values, positive, strictly decreasing, from the largest |g_j| / w_j over alpha down to the given proportion of it. *)
Theorem C45_sequence : forall w g prop nstep alpha ls, length g = length w -> nonneg w -> (exists j, (j < length w)%nat /\ 0 < nth j w 0 /\ nth j g 0 <> 0) -> 0 < prop < 1 -> (2 <= nstep)%nat -> 0 < alpha ->
  default_lagrange_sequence w g prop nstep alpha = Ok ls ->
  length ls = nstep /\ (forall i, (S i < nstep)%nat -> 0 < nth (S i) ls 0 < nth i ls 0) /\ nth (nstep - 1) ls 0 = prop * nth 0 ls 0 /\
  (forall j, (j < length w)%nat -> 0 < nth j w 0 -> Rabs (nth j g 0) <= alpha * nth 0 ls 0 * nth j w 0) /\ exists j, (j < length w)%nat /\ 0 < nth j w 0 /\ Rabs (nth j g 0) = alpha * nth 0 ls 0 * nth j w 0.
Proof. exact sequence_shape. Qed.
Print Assumptions C45_sequence.
(** nstep = 1 gives the last value of the longer sequences, not the first. *)
Theorem C45_one_step_refuted : forall w g prop alpha, length g = length w -> nonneg w -> (exists j, (j < length w)%nat /\ 0 < nth j w 0) -> 0 < prop -> 0 < alpha ->
  exists M, default_lagrange_sequence w g prop 1 alpha = Ok [M * prop / alpha] /\ default_lagrange_sequence w g prop 2 alpha = Ok [M / alpha; M * prop / alpha].
Proof. exact one_step. Qed.
Print Assumptions C45_one_step_refuted.
(** The rank reported for a failing feature is its place among all features, largest excess first, counted from 0; places reverse the order of the excesses. *)
Theorem C45_ranks : forall w g s lam tol j, 0 < lam -> (j < length s)%nat -> let e := excess_of w g s lam in
  nth j (snd (check_KKT w g s lam tol)) 0 = if Rle_dec (e j) (1 + tol) then -1 else place (length s) e j.
Proof. exact ranks_are_places. Qed.
Print Assumptions C45_ranks.
Theorem C45_ranks_order : forall n e i j, (i < n)%nat -> (j < n)%nat -> (e j < e i <-> place n e i < place n e j) /\ (e i = e j <-> place n e i = place n e j).
Proof. exact place_order. Qed.
Print Assumptions C45_ranks_order.
Example C45_instance : good_path (one_path 10) /\ null_solution (one_path 10) [0] /\ nth 0 (path_gradient (one_path 10) [0] (t_lin (lp_X (one_path 10)) [0]) 1) 0 <> 0 /\ exists ls, default_lagrange_sequence [1] [- 10] (/ 2) 3 1 = Ok ls.
Proof.
  split; [apply one_good|]. assert (N : null_solution (one_path 10) [0]). { split; auto. split; [intros [|[|j]] _; reflexivity|]. intros [|[|j]]; cbn; intros; try lra; auto. } split; auto. rewrite one_gradient. split; [cbn; lra|].
  destruct (sequence_max [1] [- 10] (/ 2) 3 1) as (M & E & _); auto; [repeat constructor; lra|exists 0%nat; cbn; split; [lia|lra]|]. eauto.
Qed.

(** ** C46 *)
(** From the zero solution. Every value gets one point; every reported solution is the solver's answer for the final set, zero elsewhere;
    without a warning no inactive feature fails the check there, and with check_active no feature at all. *)
Theorem C46_accepted : forall P, good_path P -> forall S chk max_tries fuel l0 ls g pts, right_size S -> strong_rules fuel P S chk max_tries (l0 :: ls) (zeros (lp_size P)) g = Ok pts ->
  map pt_lagrange pts = ls /\ Forall (fun pt => restricted P S pt /\ (pt_warned pt = false -> inactive_passes (checked P (pt_lagrange pt) (pt_beta pt)) /\ (chk = true -> passes (checked P (pt_lagrange pt) (pt_beta pt)))) /\ (pt_warned pt = true -> (max_tries <= pt_tries pt)%nat)) pts.
Proof. intros P GP S chk max_tries fuel l0 ls g pts RS E. exact (path_spec P GP S chk max_tries fuel ls l0 _ pts RS (start_ok P g) E). Qed.
Print Assumptions C46_accepted.
(** It always ends, whatever the solver answers. The number of inner solves is max_tries when that is a positive multiple of 5, and at
    most four more otherwise. *)
Theorem C46_ends_partial : forall P S chk max_tries fuel lseq sol g, (Nat.max 1 max_tries + 4 <= fuel)%nat -> exists pts, strong_rules fuel P S chk max_tries lseq sol g = Ok pts /\
  Forall (fun pt => (pt_tries pt <= Nat.max 1 max_tries + 4)%nat /\ forall k, (0 < k)%nat -> max_tries = (5 * k)%nat -> (pt_tries pt <= max_tries)%nat) pts.
Proof.
  intros P S chk max_tries fuel lseq sol g Hf. assert (B := bound_le max_tries). destruct lseq as [|l0 ls]; [exists []; split; [reflexivity|constructor]|]. destruct (path_ends P S chk max_tries fuel ls l0 (start_state P sol g) ltac:(lia)) as (pts & E & F). exists pts. split; [exact E|]. apply Forall_impl with (2 := F). intros pt H. split; [lia|]. intros k Hk Em. assert (bound max_tries = max_tries); [|lia]. unfold bound. rewrite Nat.max_r by lia. subst max_tries. rewrite (Nat.mul_comm 5 k), Nat.div_add_l by lia. cbn. lia.
Qed.
Print Assumptions C46_ends_partial.
(** max_tries = 1, two inner solves, both exact *)
Theorem C46_refuted : good_path (one_path 10) /\ exact_solver (one_path 10) (one_solver 10) /\ exists pts pt, strong_rules 5 (one_path 10) (one_solver 10) false 1 [9; 1] [0] [-10] = Ok pts /\ In pt pts /\ pt_tries pt = 2%nat.
Proof. split; [apply one_good|]. split; [apply one_exact; lra|exact too_many]. Qed.
Print Assumptions C46_refuted.
(** With an exact solver and p features at most p + 1 solves are made per value, and no warning is given if max_tries > p. *)
Theorem C46_exact : forall P, good_path P -> forall S chk max_tries fuel l0 ls g pts, right_size S -> exact_solver P S -> Forall (fun l => 0 < l) ls -> strong_rules fuel P S chk max_tries (l0 :: ls) (zeros (lp_size P)) g = Ok pts ->
  Forall (fun pt => (pt_tries pt <= lp_size P + 1)%nat /\ (pt_warned pt = true -> (max_tries <= lp_size P)%nat) /\ solves P (pt_lagrange pt) (pt_set pt) (pt_sub pt)) pts.
Proof. intros P GP S chk max_tries fuel l0 ls g pts RS XS Pl E. exact (path_exact P GP S chk max_tries fuel RS XS ls l0 _ pts Pl (start_ok P g) (repeat_length _ _) E). Qed.
Print Assumptions C46_exact.
(** All features penalized: what passes is nearly optimal, if the restricted problem was solved exactly. *)
Theorem C46_optimal : forall P, good_path P -> forall lam set b v, 0 < lam -> index_set (lp_size P) set -> solves P lam set b -> (forall j, (j < lp_size P)%nat -> ~ In j set -> 0 < nth j (lp_weights P) 0) -> inactive_passes (checked P lam (embed (lp_size P) set b)) -> length v = lp_size P ->
  path_objective P lam (embed (lp_size P) set b) <= path_objective P lam v + kkt_tol * (lp_alpha P * lam * sum_over (lp_size P) (fun j => nth j (lp_weights P) 0 * Rabs (nth j v 0))).
Proof. exact nearly_optimal. Qed.
Print Assumptions C46_optimal.
Example C46_instance : good_path (one_path 10) /\ exact_solver (one_path 10) (one_solver 10) /\ right_size (one_solver 10) /\ exists pts, strong_rules 24 (one_path 10) (one_solver 10) false 20 [9; 5; 1] (zeros (lp_size (one_path 10))) [-10] = Ok pts /\ length pts = 2%nat.
Proof.
  split; [apply one_good|]. destruct (one_exact 10 ltac:(lra)) as (A & B). split; auto. split; auto. destruct (C46_ends_partial (one_path 10) (one_solver 10) false 20 24 [9; 5; 1] (zeros (lp_size (one_path 10))) [-10] ltac:(cbn; lia)) as (pts & E & _). exists pts. split; auto.
  destruct (C46_accepted (one_path 10) (one_good 10) (one_solver 10) false 20 24 9 [5; 1] [-10] pts B E) as (L & _). apply (f_equal (@length R)) in L. rewrite map_length in L. exact L.
Qed.

(** ** C47 *)
(** By default an unpenalized feature is in no subproblem, ... *)
Theorem C47_refuted : forall P S max_tries fuel lseq sol g pts, strong_rules fuel P S false max_tries lseq sol g = Ok pts -> Forall (fun pt => forall j, In j (pt_set pt) -> nth j (lp_weights P) 0 <> 0) pts.
Proof. intros P S max_tries fuel [|l0 ls] sol g pts E; [apply Ok_inj in E; subst; constructor|]. exact (never_free P S max_tries fuel ls l0 _ pts (start_free P sol g) E). Qed.
Print Assumptions C47_refuted.
(** ... and the point accepted without a warning can be worse than the null solution, and not stationary: x1 = x2 = 1, y = 2, weights 0, 1. *)
Theorem C47_worse_refuted : good_path free_path /\ forall fuel, exists pt, strong_rules (2 + fuel) free_path free_solver false 20 [1; / 2] [2; 0] [0; 0] = Ok [pt] /\ pt_warned pt = false /\ pt_beta pt = [2; 3 / 2] /\ solves free_path (/ 2) (pt_set pt) (pt_sub pt) /\
  null_solution free_path [2; 0] /\ path_objective free_path (/ 2) [2; 0] < path_objective free_path (/ 2) (pt_beta pt) /\ nth 0 (path_gradient free_path (pt_beta pt) (t_lin (lp_X free_path) (pt_beta pt)) (/ 2)) 0 <> 0.
Proof. split; [exact free_good|exact free_wrong]. Qed.
Print Assumptions C47_worse_refuted.
(** With check_active, from the zero solution, every unpenalized gradient entry of an accepted point is within the tolerance. *)
Theorem C47_checked_partial : forall P, good_path P -> forall S max_tries fuel l0 ls g pts m, right_size S -> mean_weight (lp_weights P) = Some m -> strong_rules fuel P S true max_tries (l0 :: ls) (zeros (lp_size P)) g = Ok pts ->
  Forall (fun pt => pt_warned pt = false -> forall j, (j < lp_size P)%nat -> nth j (lp_weights P) 0 = 0 -> Rabs (nth j (path_gradient P (pt_beta pt) (t_lin (lp_X P) (pt_beta pt)) (pt_lagrange pt)) 0) <= kkt_tol * m) pts.
Proof.
  intros P GP S max_tries fuel l0 ls g pts m RS Em E. destruct (C46_accepted P GP S true max_tries fuel l0 ls g pts RS E) as (_ & F). apply Forall_impl with (2 := F). intros pt ((_ & Eb & _) & A & _) W j Hj Z. destruct (A W) as (_ & B). specialize (B eq_refl). unfold checked in B. apply passes_iff in B. destruct B as (B & _).
  assert (Lb : length (pt_beta pt) = lp_size P) by (rewrite Eb; apply (embed_length P)). rewrite Lb in B. specialize (B j Hj). unfold active_fails in B. rewrite Z, Em in B. replace (is0 0) with true in B by (symmetry; apply is0_true; auto). apply gtb_false in B. apply abs_div_le in B; auto. apply (mean_pos _ _ Em).
Qed.
Print Assumptions C47_checked_partial.
Example C47_instance : good_path free_path /\ (exists m, mean_weight (lp_weights free_path) = Some m) /\ right_size free_solver /\ exists pts, strong_rules 24 free_path free_solver true 20 [1; / 2] (zeros (lp_size free_path)) [-2; -2] = Ok pts.
Proof.
  split; [exact free_good|]. split; [apply mean_some; exists 1%nat; cbn; split; [lia|lra]|]. split; [intros k v set l; apply map_length|]. destruct (C46_ends_partial free_path free_solver true 20 24 [1; / 2] (zeros (lp_size free_path)) [-2; -2] ltac:(cbn; lia)) as (pts & E & _). eauto.
Qed.

(** ** C49 *)
(** Strictly decreasing sequences: one solution per value, in order, each the solver's answer for a set with all unpenalized features in it,
    zero elsewhere, and no inactive feature fails. *)
Theorem C49_order_partial : forall P, good_path P -> forall S fuel nvar step lseq sol grad sols, right_size S -> decreasing lseq -> (0 < step)%nat -> length sol = lp_size P -> (forall j, nth j (lp_weights P) 0 <> 0 -> nth j sol 0 = 0) -> basil fuel P S nvar step lseq sol grad = Ok sols ->
  length sols = length lseq /\ forall i, (i < length lseq)%nat -> basil_point P S (nth i lseq 0) (nth i sols []).
Proof.
  intros P GP S fuel nvar step lseq sol grad sols RS D Hs Ls Z E. unfold basil in E. destruct (basil_loop fuel P S false nvar step lseq sol grad [] [] 0) as [r|e] eqn:El; [|discriminate]. cbn [rmap] in E. apply Ok_inj in E. subst sols.
  destruct (loop_spec P GP S RS nvar step lseq sol D Hs (Logic.conj Ls Z) fuel grad [] [] 0%nat r) as (A & B); auto; [split; constructor|]. assert (Lr : length r = length lseq) by (rewrite <- A, map_length; auto). split; [rewrite map_length; auto|]. intros i Hi. rewrite <- A. change (basil_point P S (nth i (map fst r) (fst (0, @nil R))) (nth i (map snd r) (snd (0, @nil R)))). rewrite (map_nth fst), (map_nth snd). rewrite Forall_forall in B. apply B. apply nth_In. lia.
Qed.
Print Assumptions C49_order_partial.
(** With an exact solver it ends, after at most (number of values)(p + 2) + p + 1 rounds. *)
Theorem C49_ends_partial : forall P, good_path P -> forall S fuel nvar step lseq sol grad, right_size S -> exact_solver P S -> decreasing lseq -> Forall (fun l => 0 < l) lseq -> (0 < step)%nat -> length sol = lp_size P -> (forall j, nth j (lp_weights P) 0 <> 0 -> nth j sol 0 = 0) ->
  (length lseq * (lp_size P + 2) + (lp_size P + 1) < fuel)%nat -> exists sols, basil fuel P S nvar step lseq sol grad = Ok sols.
Proof.
  intros P GP S fuel nvar step lseq sol grad RS XS D Pl Hs Ls Z Hf. destruct (loop_ends P GP S RS nvar step lseq sol D Pl Hs (Logic.conj Ls Z) XS fuel grad [] [] 0%nat) as (r & E); [split; constructor|reflexivity|cbn [length]; rewrite !Nat.sub_0_r; exact Hf|]. unfold basil. rewrite E. eexists. reflexivity.
Qed.
Print Assumptions C49_ends_partial.
(** ... and each solution is nearly optimal. *)
Theorem C49_optimal : forall P, good_path P -> forall S l s v, exact_solver P S -> 0 < l -> basil_point P S l s -> length v = lp_size P ->
  path_objective P l s <= path_objective P l v + kkt_tol * (lp_alpha P * l * sum_over (lp_size P) (fun j => nth j (lp_weights P) 0 * Rabs (nth j v 0))).
Proof.
  intros P GP S l s v XS Hl (set & k & u & I & U & -> & C) Lv. apply (nearly_optimal P GP); auto. intros j Hj Nj. assert (W := weight_nonneg P GP j). destruct (Req_EM_T (nth j (lp_weights P) 0) 0) as [E|E]; [exfalso; apply Nj; auto|]. lra.
Qed.
Print Assumptions C49_optimal.
(** A value listed twice is solved once. *)
Theorem C49_refuted : good_path (one_path 0) /\ exact_solver (one_path 0) (one_solver 0) /\ forall fuel, basil (2 + fuel) (one_path 0) (one_solver 0) 1 1 [1; 1] [0] [0] = Ok [[0]].
Proof. split; [apply one_good|]. split; [apply one_exact; lra|exact value_dropped]. Qed.
Print Assumptions C49_refuted.
(** A solver that gives up at once keeps the loop running for ever. *)
Theorem C49_endless_refuted : good_path (one_path 10) /\ right_size idle_solver /\ forall fuel, basil fuel (one_path 10) idle_solver 1 1 [1] [0] [-10] = Err OutOfFuel.
Proof. split; [apply one_good|]. split; [intros k v set l; apply map_length|]. intros fuel. unfold basil. rewrite never_ends. reflexivity. Qed.
Print Assumptions C49_endless_refuted.
(** The features the next restricted problem is solved over: the nvar worst failures at the smallest candidate penalty (all of them if there are fewer), the unpenalized ones, and the previous candidates. *)
Theorem C49_candidates : forall P, good_path P -> forall nvar sol grad ls cand j, 0 < minimum ls -> length sol = lp_size P -> (j < lp_size P)%nat ->
  let e := excess_of (lp_weights P) grad sol (lp_alpha P * minimum ls) in
  let nfail := count (lp_size P) (fun i => if Rlt_dec (1 + kkt_tol) (e i) then true else false) in
  (In j (basil_set P nvar sol grad ls cand) <->
    (1 + kkt_tol < e j /\ place (lp_size P) e j < INR (Nat.min nvar nfail)) \/ nth j (lp_weights P) 0 = 0 \/ In j cand).
Proof. exact candidates. Qed.
Print Assumptions C49_candidates.
Example C49_instance : good_path (one_path 10) /\ right_size (one_solver 10) /\ exact_solver (one_path 10) (one_solver 10) /\ decreasing [9; 5; 1] /\ exists sols, basil 12 (one_path 10) (one_solver 10) 1 2 [9; 5; 1] [0] [-10] = Ok sols.
Proof.
  destruct (one_exact 10 ltac:(lra)) as (A & B). split; [apply one_good|]. split; auto. split; auto. assert (D : decreasing [9; 5; 1]) by (intros [|[|[|i]]] [|[|[|j]]]; cbn; intros; try lia; lra). split; auto.
  apply (C49_ends_partial (one_path 10) (one_good 10)); auto; [repeat (apply Forall_cons; [lra|]); apply Forall_nil|intros [|[|j]] _; reflexivity].
Qed.
