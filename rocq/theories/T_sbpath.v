(** C87, C88: paths of matrices with sparse group penalties on the rows. *)
From Coq Require Import Reals List Lra Lia Psatz Bool ZArith Permutation.
From Verif Require Import M_affine SpecAffine Vec Spec SpecAtom SpecConvex M_quad M_prox M_semi SpecPart SpecGroup M_mixed M_weighted M_group SpecSgl M_sgl SpecBlock M_block SpecSgb M_sgb
  M_loss SpecLoss SpecSmooth M_path SpecPath M_gpath SpecGpath SpecSgpath M_sbpath SpecSbpath P_sgpath3 P_sbpath P_sbpath2 P_sbpath3 P_sbpath4.
From Verif Require P_sgl7.
Import ListNotations.
Local Open Scope R_scope.

(** ** C87. The optimality check and the strong rule. [order] is np.argsort. *)
(** What passes is optimal up to explicit errors: a row above the threshold contributes a multiple of its change; a row below it, twice its own penalty and the tolerance of the dual norm. Needs positive weights. *)
Theorem C87_sound_partial : forall order r c l1 l2 grad s lam tol fuel f q v, sorts order -> length s = (r * c)%nat -> length v = (r * c)%nat -> (20 < fuel)%nat -> 0 < l1 -> 0 < l2 -> l1 * sqrt (INR c) <= 10 ^ 5 * l2 -> (1 / 2) ^ 50 <= lam -> 0 <= tol < 1 ->
  convex_on (r * c) f -> is_gradient (r * c) f s grad -> sb_check order r c l1 l2 grad s lam tol fuel = Ok q -> passes q ->
  f s + lam * block_pen r c l1 l2 s <= f v + lam * block_pen r c l1 l2 v + block_error r c l1 l2 lam tol s v.
Proof. exact sb_sound. Qed.
Print Assumptions C87_sound_partial.
(** A minimizer passes, if the weights are resolved by the search for dual norms. *)
Theorem C87_complete_partial : forall order r c l1 l2 grad s lam tol fuel f, sorts order -> length s = (r * c)%nat -> (20 < fuel)%nat -> 0 <= l1 -> resolved (repeat l1 c) l2 lam tol -> (1 / 2) ^ 49 <= lam <= 2 ^ 50 -> 2 / 10 ^ 6 <= tol ->
  is_gradient (r * c) f s grad -> (forall v, length v = (r * c)%nat -> f s + lam * block_pen r c l1 l2 s <= f v + lam * block_pen r c l1 l2 v) ->
  exists q, sb_check order r c l1 l2 grad s lam tol fuel = Ok q /\ passes q.
Proof. exact sb_complete. Qed.
Print Assumptions C87_complete_partial.
(** Rows below one hundredth of the sum of the norms are tested as if they were zero: a point passes although setting its second row to zero improves the objective by 3/2 lam^2. *)
Theorem C87_small_refuted : forall order lam fuel, sorts order -> (20 < fuel)%nat -> 1 <= lam <= 800 -> let y := [102 * lam; lam] in let s := [100 * lam; lam] in let v := [100 * lam; 0] in
  exists q, sb_check order 2 1 1 1 (vsub s y) s lam kkt_tol fuel = Ok q /\ passes q /\ is_gradient 2 (half_dist y) s (vsub s y) /\ convex_on 2 (half_dist y) /\
  half_dist y v + lam * block_pen 2 1 1 1 v + 3 / 2 * (lam * lam) <= half_dist y s + lam * block_pen 2 1 1 1 s.
Proof. exact sb_small_wrong. Qed.
Print Assumptions C87_small_refuted.
(** Without l1 weight the size of the gradient of a row off zero is not tested: a point passes that is 4900 above another. *)
Theorem C87_sound_refuted : forall order fuel, (20 < fuel)%nat -> exists q, sb_check order 1 1 0 1 [-100] [1] 1 kkt_tol fuel = Ok q /\ passes q /\ is_gradient 1 (half_dist [101]) [1] [-100] /\
  half_dist [101] [100] + 1 * block_pen 1 1 0 1 [100] < half_dist [101] [1] + 1 * block_pen 1 1 0 1 [1] - 4900.
Proof. exact sb_sound_wrong. Qed.
Print Assumptions C87_sound_refuted.
(** With small weights the exact minimizer fails. *)
Theorem C87_complete_refuted : forall order fuel, (20 < fuel)%nat -> let y := 1 + 2 / 10 ^ 6 in let w := 2 / 10 ^ 6 in
  exists q, sb_check order 1 1 0 w [- w] [1] 1 kkt_tol fuel = Ok q /\ ~ passes q /\ is_gradient 1 (half_dist [y]) [1] [- w] /\
  forall v, length v = 1%nat -> half_dist [y] [1] + 1 * block_pen 1 1 0 w [1] <= half_dist [y] v + 1 * block_pen 1 1 0 w v.
Proof. exact sb_complete_wrong. Qed.
Print Assumptions C87_complete_refuted.
(** A row off zero with zero gradient raises TypeError. *)
Theorem C87_flat_refuted : forall order r c l1 l2 grad s lam tol fuel x q, 0 <= l1 -> 0 <= l2 -> (20 < fuel)%nat -> length s = (r * c)%nat -> In (zeros c, x) (combine (rows r c grad) (rows r c s)) -> tol * Rmax (vsum (map norm (rows r c s))) 1 < norm x ->
  sb_row_check l1 l2 (vsum (map norm (rows r c s))) lam tol fuel (zeros c, x) = Err TypeError /\ sb_check order r c l1 l2 grad s lam tol fuel <> Ok q.
Proof. exact sb_flat_raises. Qed.
Print Assumptions C87_flat_refuted.
(** A rank is not negative exactly when the row fails, ... *)
Theorem C87_ranks : forall order terms tol j, sorts order -> (j < length terms)%nat -> (0 <= nth j (sb_ranks order terms tol) 0 <-> forall a, nth j terms (Fin 0) = Fin a -> 1 + tol < a).
Proof. exact ranks_sign. Qed.
Print Assumptions C87_ranks.
(** ... but ranks do not follow the violations: for dual norms 4, 2, 3 they are 2, 1, 3. *)
Theorem C87_ranks_refuted : forall order tol, sorts order -> 0 <= tol < 1 -> sb_ranks order [Fin 4; Fin 2; Fin 3] tol = [2; 1; 3].
Proof. exact ranks_not_monotone. Qed.
Print Assumptions C87_ranks_refuted.
(** A row is kept exactly when 2 lnew - lcur is negative or its gradient is outside that multiple of the dual ball, with l2 + 1e-5 for l2. *)
Theorem C87_strong : forall r c l1 l2 grad lcur lnew i, length grad = (r * c)%nat -> 0 <= l1 -> 0 <= l2 -> (i < r)%nat -> let row := nth i (rows r c grad) [] in
  nth i (sb_strong r c l1 l2 grad lcur lnew) false = true <-> 2 * lnew - lcur < 0 \/ ~ dual_ball c (one_group (repeat l1 c) (l2 + / 10 ^ 5)) (2 * lnew - lcur) row.
Proof. exact sb_strong_meaning. Qed.
Print Assumptions C87_strong.
Example C87_sorts : sorts argsort.
Proof. exact argsort_sorts. Qed.
Example C87_case : let B := gq_base (one_path argsort) in good_path B /\ block_solves B 1 1 1 1 1 [0%Z] [1] /\ embed (lp_size B) (features (row_labels 1 1) [0%Z]) [1] = [1] /\
  exists q, sb_check argsort 1 1 1 1 (path_gradient B [1] (t_lin (matrix [[1]] 1 None) [1]) 1) [1] (1 * 1) kkt_tol 30 = Ok q /\ passes q.
Proof. exact (one_case argsort argsort_sorts). Qed.
Example C87_resolved : resolved (repeat 1 1) 1 1 kkt_tol.
Proof. cbn [repeat]. unfold resolved, resolution, kkt_tol. rewrite P_sgl7.norm1, Rabs_pos_eq by lra. lra. Qed.
Example C87_flat_case : In (zeros 1, [1]) (combine (rows 1 1 [0]) (rows 1 1 [1])) /\ kkt_tol * Rmax (vsum (map norm (rows 1 1 [1]))) 1 < norm [1].
Proof. split; [left; reflexivity|]. cbn [rows firstn skipn map]. unfold vsum. cbn [fold_right]. rewrite P_sgl7.norm1, Rabs_pos_eq by lra. rewrite Rmax_left by lra. unfold kkt_tol. lra. Qed.

(** ** C88. The path *)
(** One point per value, each the answer of the solver for the final rows, zero elsewhere; without a warning no row at zero fails the check of the whole problem, and with check_active no row at all. *)
Theorem C88_accepted : forall order grad func X r c l1 l2 l1_alpha enet alpha fuel0, let P := sb_path order grad func X r c l1 l2 l1_alpha enet alpha fuel0 in let B := gq_base P in good_path B -> (0 < c)%nat -> sorts order -> 
  forall S chk max_tries fuel l0 ls g pts, right_size S -> group_strong_rules fuel P S chk max_tries (l0 :: ls) (zeros (lp_size B)) g = Ok pts ->
  map gp_lagrange pts = ls /\ Forall (fun pt => group_restricted P S pt /\ (gp_warned pt = true -> (max_tries <= gp_tries pt)%nat) /\
    (gp_warned pt = false -> exists q, sb_check order r c l1 l2 (path_gradient B (gp_beta pt) (t_lin X (gp_beta pt)) (gp_lagrange pt)) (gp_beta pt) (alpha * gp_lagrange pt) kkt_tol fuel0 = Ok q /\ inactive_passes q /\ (chk = true -> passes q))) pts.
Proof. intros order grad func X r c l1 l2 l1_alpha enet alpha fuel0 P B GP Hc So. exact (sb_accepted order grad func X r c l1 l2 l1_alpha enet alpha fuel0 GP Hc). Qed.
Print Assumptions C88_accepted.
(** With check_active, a point returned without a warning is optimal up to the errors of C87, whatever the solver does. *)
Theorem C88_near_partial : forall order grad func X r c l1 l2 l1_alpha enet alpha fuel0, let P := sb_path order grad func X r c l1 l2 l1_alpha enet alpha fuel0 in let B := gq_base P in good_path B -> (0 < c)%nat -> sorts order -> (20 < fuel0)%nat -> 0 < l1 -> 0 < l2 -> l1 * sqrt (INR c) <= 10 ^ 5 * l2 ->
  forall S max_tries fuel l0 ls g pts pt v, right_size S -> group_strong_rules fuel P S true max_tries (l0 :: ls) (zeros (lp_size B)) g = Ok pts -> In pt pts -> gp_warned pt = false -> (1 / 2) ^ 50 <= alpha * gp_lagrange pt -> length v = (r * c)%nat ->
  block_objective B r c l1 l2 (gp_lagrange pt) (gp_beta pt) <= block_objective B r c l1 l2 (gp_lagrange pt) v + block_error r c l1 l2 (alpha * gp_lagrange pt) kkt_tol (gp_beta pt) v.
Proof. intros order grad func X r c l1 l2 l1_alpha enet alpha fuel0 P B GP Hc So Hf. exact (sb_near order grad func X r c l1 l2 l1_alpha enet alpha fuel0 GP Hc So Hf). Qed.
Print Assumptions C88_near_partial.
(** If the restricted problem was solved exactly and the rows outside pass, the point is optimal up to the tolerance, the error 2e-6 of the dual norms and the 1e-5 they add to l2. *)
Theorem C88_optimal : forall order grad func X r c l1 l2 l1_alpha enet alpha fuel0, let P := sb_path order grad func X r c l1 l2 l1_alpha enet alpha fuel0 in let B := gq_base P in good_path B -> (0 < c)%nat -> sorts order -> (20 < fuel0)%nat -> 0 <= l1 -> 0 <= l2 ->
  forall lam set b q v, 0 < lam -> (1 / 2) ^ 50 <= alpha * lam -> block_solves B r c l1 l2 lam set b -> let s := embed (lp_size B) (features (row_labels r c) set) b in
  sb_check order r c l1 l2 (path_gradient B s (t_lin X s) lam) s (alpha * lam) kkt_tol fuel0 = Ok q -> inactive_passes q -> length v = (r * c)%nat ->
  smooth_part B lam s + alpha * lam * block_pen r c l1 l2 s <= smooth_part B lam v + alpha * lam * ((1 + kkt_tol) * (1 + 2 / 10 ^ 6)) * block_pen r c l1 (l2 + / 10 ^ 5) v.
Proof. intros order grad func X r c l1 l2 l1_alpha enet alpha fuel0 P B GP Hc So Hf. exact (sb_optimal order grad func X r c l1 l2 l1_alpha enet alpha fuel0 GP Hc So Hf). Qed.
Print Assumptions C88_optimal.
(** The first value of the default sequence is, up to the errors of the search, the smallest at which zero is optimal; slack is small for gradients that are not large against the weights. *)
Theorem C88_lambda_max_partial : forall order grad func X r c l1 l2 l1_alpha enet alpha fuel0, let B := gq_base (sb_path order grad func X r c l1 l2 l1_alpha enet alpha fuel0) in good_path B -> (20 < fuel0)%nat -> 0 <= l1 -> 0 <= l2 -> 0 < l1 + l2 -> let null := path_gradient B (zeros (r * c)) (t_lin X (zeros (r * c))) 1 in
  forall prop nstep ls, (2 <= nstep)%nat -> sb_lagrange_sequence r c l1 l2 null prop nstep alpha fuel0 = Ok ls ->
  let slack := (1 / 2) ^ 50 + / 10 ^ 10 * Rmax (norm null) 1 / (l1 + l2) in let first := nth 0 ls 0 in
  length ls = nstep /\ 0 <= first /\ forall lam, 0 < lam ->
  ((1 + 2 / 10 ^ 6) * first + slack / alpha <= lam -> forall v, length v = (r * c)%nat -> block_objective B r c l1 l2 lam (zeros (r * c)) <= block_objective B r c l1 l2 lam v) /\
  ((forall v, length v = (r * c)%nat -> block_objective B r c l1 l2 lam (zeros (r * c)) <= block_objective B r c l1 l2 lam v) -> (1 - / 10 ^ 6) * first <= lam).
Proof. intros order grad func X r c l1 l2 l1_alpha enet alpha fuel0 B GP Hf H1 H2 Hp. exact (sb_lambda_max order grad func X r c l1 l2 l1_alpha enet alpha fuel0 GP Hf H1 H2 Hp). Qed.
Print Assumptions C88_lambda_max_partial.
(** With weights 1e-11 and null gradient 1e-10 every value of the default sequence is 0, although zero is not optimal below 5 / alpha. *)
Theorem C88_lambda_max_refuted : forall order grad func X l1_alpha enet alpha fuel prop nstep, let l := / 10 ^ 11 in let B := gq_base (sb_path order grad func X 1 1 l l l1_alpha enet alpha fuel) in
  good_path B -> (20 < fuel)%nat -> (2 <= nstep)%nat -> path_gradient B [0] (t_lin X [0]) 1 = [/ 10 ^ 10] ->
  (exists ls, sb_lagrange_sequence 1 1 l l (path_gradient B [0] (t_lin X [0]) 1) prop nstep alpha fuel = Ok ls /\ length ls = nstep /\ forall i, nth i ls 0 = 0) /\
  forall lam, 0 < lam -> alpha * lam < 5 -> ~ forall v, length v = 1%nat -> block_objective B 1 1 l l lam [0] <= block_objective B 1 1 l l lam v.
Proof. exact lambda_max_zero. Qed.
Print Assumptions C88_lambda_max_refuted.
(** l1_alpha does not change the path: the penalty is built before the weights are scaled, ... *)
Theorem C88_l1_alpha_refuted : forall order grad func X r c l1 l2 a enet alpha fuel, sb_path order grad func X r c l1 l2 (Some a) enet alpha fuel = sb_path order grad func X r c l1 l2 None enet alpha fuel.
Proof. exact sb_alpha_ignored. Qed.
Print Assumptions C88_l1_alpha_refuted.
(** ... and with the scaled weights another set of rows would be kept. *)
Theorem C88_weights_refuted : forall order grad func X enet alpha fuel, 
  gq_strong (sb_path order grad func X 1 1 1 1 (Some (1 / 2)) enet alpha fuel) [3 / 2] 1 1 = [false] /\ gq_strong (sb_path order grad func X 1 1 (1 * (1 / 2)) (1 * (1 - 1 / 2)) None enet alpha fuel) [3 / 2] 1 1 = [true].
Proof. exact sb_weights_differ. Qed.
Print Assumptions C88_weights_refuted.
(** A path for a subsample has the scaled weights, so it solves other problems than the path itself; without l1_alpha the weights agree. *)
Theorem C88_subsample_refuted : forall order grad func X r c l1 l2 a enet alpha fuel, sb_subsample order grad func X r c l1 l2 (Some a) enet alpha fuel = sb_path order grad func X r c (l1 * a) (l2 * (1 - a)) None enet alpha fuel /\
  sb_subsample order grad func X r c l1 l2 None enet alpha fuel = sb_path order grad func X r c l1 l2 None enet alpha fuel.
Proof. exact sb_subsample_weights. Qed.
Print Assumptions C88_subsample_refuted.
