(** Sparse group lasso paths: strong set, and where the check, the ridge term and subsampling go wrong. *)
From Coq Require Import Reals List Lra Lia Arith Bool ZArith Permutation Sorted.
From Verif Require Import M_affine SpecAffine P_affine P_affine2 M_loss SpecLoss SpecSmooth P_smooth Vec Spec SpecConvex M_quad M_prox M_semi M_weighted P_quad P_calc P_sep P_feas M_problem P_problem M_cv SpecCv P_cv M_path SpecPath P_path P_path2 P_path3 P_path4
  SpecPart SpecGroup SpecWeighted SpecSgl M_mixed M_group M_sgl SpecGatom P_part P_mixed P_kinds P_group P_sgl2 P_sgl3 P_sgl5 P_sgl7 M_gpath SpecGpath P_gpath P_gpath3 P_sgpath P_sgpath2.
Import ListNotations.
Local Open Scope R_scope.

Theorem sg_strong_meaning : forall labels lw given grad lcur lnew i, length lw = length labels -> length grad = length labels -> Forall (fun r => 0 <= r) lw -> (forall h, In h labels -> 0 <= group_weight given labels h) ->
  (i < length (g_ids labels))%nat -> let g := nth i (g_ids labels) 0%Z in
  nth i (sg_strong labels lw given grad lcur lnew) false = true <->
  2 * lnew - lcur < 0 \/ ~ dual_ball (length (block labels g grad)) (one_group (block labels g lw) (group_weight given labels g + / 10 ^ 5)) (2 * lnew - lcur) (block labels g grad).
Proof.
  intros labels lw given grad lcur lnew i Ll Lg Hl Hw Hi g. unfold sg_strong. set (F := fun x : Z => _). rewrite (nth_indep _ false (F 0%Z)) by (rewrite map_length; auto). rewrite (map_nth F). fold g. unfold F. rewrite !zpick_block. change (weight_of given labels g) with (group_weight given labels g).
  assert (Hg : In g labels). { apply -> sorted_unique_in. apply nth_In. exact Hi. } specialize (Hw g Hg). unfold inside_set_strong. set (b := 2 * lnew - lcur) in *. clearbody b. assert (N := norm_nonneg (soft_pos (block labels g lw) b (block labels g grad))).
  destruct (Rlt_dec b 0) as [Nb|Pb].
  - destruct (Rle_dec _ _) as [H|H]; cbn [negb]; [exfalso; nra|]. tauto.
  - rewrite one_ball_iff by (try (apply block_length; congruence); try apply block_forall; auto; lra). destruct (Rle_dec _ _) as [H|H]; cbn [negb]; split; try tauto; try discriminate.
Qed.
(** ** a group that is not at zero and has no gradient *)
Lemma dual_norm_zero : forall a w n, Forall (fun r => 0 <= r) a -> 0 <= w -> is_dual_norm n (one_group a w) (zeros n) 0.
Proof.
  intros a w n Ha Hw. split; [lra|]. split; [|intros b Hb _; auto]. intros v s Lv Ev. rewrite dot_comm, dot_zeros_r. lra.
Qed.
Lemma vopp_zeros : forall n, vopp (zeros n) = zeros n.
Proof. induction n as [|n IH]; auto. unfold vopp, zeros in *. cbn [repeat map]. rewrite IH, Ropp_0. auto. Qed.
Theorem sg_flat_raises : forall labels lw given grad s lam tol fuel g n r, length lw = length labels -> length grad = length labels -> Forall (fun r => 0 <= r) lw -> 0 <= group_weight given labels g -> (20 < fuel)%nat -> In g labels ->
  / 10 ^ 6 * norm s < norm (block labels g s) * group_weight given labels g + vsum (vabs (vmul (block labels g s) (block labels g lw))) -> block labels g grad = zeros n ->
  sg_one labels lw given grad s lam tol fuel g = Err TypeError /\ sg_check labels lw given grad s lam tol fuel <> Ok r.
Proof.
  intros labels lw given grad s lam tol fuel g n r Ll Lg Hl Hw Hf Hg A Z.
  assert (E : sg_one labels lw given grad s lam tol fuel g = Err TypeError).
  { unfold sg_one. rewrite !zpick_block. replace (gtb _ (/ 10 ^ 6 * norm s)) with true by (symmetry; apply gtb_true; exact A). rewrite Z, vopp_zeros. unfold sg_active_check.
    assert (Ln : length (block labels g lw) = n) by (rewrite <- (zeros_length n), <- Z; apply block_length; congruence).
    destruct (strong_accurate (zeros n) (block labels g lw) (weight_of given labels g) 0 fuel) as (e & o & E & H); auto; [rewrite zeros_length; auto|apply block_forall; auto|rewrite zeros_length; apply dual_norm_zero; [apply block_forall; auto|]; change (0 <= group_weight given labels g + / 10 ^ 5); lra|].
    rewrite E. cbn [rbind]. assert (o = None). { destruct e as [m|]; [destruct H as [(_ & _ & H)|((H & _) & _)]; auto; exfalso; assert (0 < (1 / 2) ^ 50) by (apply pow_lt; lra); lra|tauto]. } subst o. reflexivity. }
  split; auto. intros H. unfold sg_check in H. destruct (rall (sg_one labels lw given grad s lam tol fuel) (g_ids labels)) as [rs|e] eqn:Er; [|discriminate]. apply (rall_err _ _ rs g TypeError) in Er; auto. apply sorted_unique_in; auto.
Qed.
(** ** groups without l1 weights *)
Definition half_sq (y : R) (v : vec) : R := / 2 * sqn (vsub v [y]).
Lemma half_sq_gradient : forall y x, is_gradient 1 (half_sq y) [x] [x - y].
Proof.
  intros y x. split; auto. intros [|d [|]] Ld; try discriminate. unfold half_sq. cbn [vadd vscal vsub vzip map]. unfold sqn, dot, vsum. cbn [vmul vzip map fold_right].
  replace ((x - y) * d + 0) with (0 + (x - y) * d + 0 * 0) by ring.
  assert (D : derivable_pt_lim (fun t => / 2 * ((x - y) * (x - y)) + t * ((x - y) * d) + t * t * (/ 2 * (d * d))) 0 (0 + (1 * ((x - y) * d)) + ((1 * 0 + 0 * 1) * (/ 2 * (d * d))))).
  { apply derivable_pt_lim_plus; [apply derivable_pt_lim_plus; [apply derivable_pt_lim_const|]|].
    - replace (1 * ((x - y) * d)) with (1 * ((x - y) * d) + 0 * 0) by ring. apply (derivable_pt_lim_mult id (fun _ => (x - y) * d) 0 1 0); [apply derivable_pt_lim_id|apply derivable_pt_lim_const].
    - replace ((1 * 0 + 0 * 1) * (/ 2 * (d * d))) with ((1 * 0 + 0 * 1) * (/ 2 * (d * d)) + (0 * 0) * 0) by ring. apply (derivable_pt_lim_mult (fun t => t * t) (fun _ => / 2 * (d * d)) 0 _ 0); [apply (derivable_pt_lim_mult id id 0 1 1); apply derivable_pt_lim_id|apply derivable_pt_lim_const]. }
  replace (0 + (x - y) * d + 0 * 0) with (0 + (1 * ((x - y) * d)) + ((1 * 0 + 0 * 1) * (/ 2 * (d * d)))) by ring.
  intros eps He. destruct (D eps He) as (dl & Hd). exists dl. intros h H0 H1. specialize (Hd h H0 H1).
  replace (/ 2 * ((x + (0 + h) * d - y) * (x + (0 + h) * d - y) + 0)) with (/ 2 * ((x - y) * (x - y)) + (0 + h) * ((x - y) * d) + (0 + h) * (0 + h) * (/ 2 * (d * d))) by field.
  replace (/ 2 * ((x + 0 * d - y) * (x + 0 * d - y) + 0)) with (/ 2 * ((x - y) * (x - y)) + 0 * ((x - y) * d) + 0 * 0 * (/ 2 * (d * d))) by field. exact Hd.
Qed.
Lemma half_sq_convex : forall y, convex_on 1 (half_sq y).
Proof.
  intros y [|a [|]] [|b [|]] t La Lb Ht; try discriminate. unfold half_sq, between. cbn [vadd vscal vsub vzip map]. unfold sqn, dot, vsum. cbn [vmul vzip map fold_right]. assert (0 <= t * (1 - t) * ((a - b) * (a - b))) by (apply Rmult_le_pos; [apply Rmult_le_pos; lra|apply Rle_0_sqr]). lra.
Qed.
Lemma one_penalty : forall a w v, sparse_penalty [1%Z] [a] (fun _ => w) [v] = a * Rabs v + w * Rabs v.
Proof. intros. unfold sparse_penalty, distinct. cbn [nodup in_dec]. unfold block. cbn. rewrite norm1. unfold vsum. cbn. ring. Qed.
(** the value of the search for one feature without l1 weight *)
Lemma one_search : forall c w fuel, 0 < c -> 0 < w -> (20 < fuel)%nat -> (1 / 2) ^ 50 < c / (w + / 10 ^ 5) <= 2 ^ 50 ->
  exists m l, gauge_function_dual_strong [c] [0] w fuel = Ok (Fin m, Some ([0], Some [l])) /\ Rabs (m - c / (w + / 10 ^ 5)) <= / 10 ^ 6 * (1 + / 10 ^ 6) * (c / (w + / 10 ^ 5)) /\ 0 < m /\ 0 < l.
Proof.
  intros c w fuel Hc Hw Hf HD. set (D := c / (w + / 10 ^ 5)) in *. assert (Dn : is_dual_norm 1 (one_group [0] (w + / 10 ^ 5)) [c] D). { unfold D. rewrite <- (Rabs_pos_eq c) at 2 by lra. apply one_dual_1. lra. }
  assert (D0 : 0 < D) by (unfold D; apply Rmult_lt_0_compat; [auto|apply Rinv_0_lt_compat; lra]).
  destruct (strong_accurate [c] [0] w D fuel) as (e & o & E & H); auto; try lra; [repeat constructor; lra|]. destruct e as [m|]; [|exfalso; lra]. destruct H as [(_ & H & _)|(_ & B & _)]; [exfalso; lra|].
  assert (B' : - (/ 10 ^ 6 * (1 + / 10 ^ 6) * D) <= m - D) by (revert B; unfold Rabs; destruct (Rcase_abs (m - D)); lra). assert (M : 0 < m) by nra. exists m.
  unfold gauge_function_dual_strong in *. destruct (search _ _ _ _) as [e|] eqn:S; [|discriminate]. cbn [rmap] in *. destruct e as [m'|]; [|discriminate]. destruct (Req_EM_T m' 0) as [Z|Z]; [injection E as E _; lra|].
  assert (m' = m) by (injection E; auto). subst m'. clear E o.
  assert (Es : vmul (soft_pos [0] m [c]) (map sgn [c]) = [c]). { unfold soft_pos, vmul. cbn [vzip map]. rewrite Rmult_0_r, Rminus_0_r, Rmax_left by apply Rabs_pos. rewrite Rabs_pos_eq by lra. unfold sgn. destruct (Rlt_dec 0 c); [|lra]. f_equal. ring. }
  rewrite Es, norm1, Rabs_pos_eq by lra. destruct (Req_EM_T c 0) as [|_]; [lra|]. exists (c / c * w * m). split; [|split; [auto|split; [auto|]]].
  - cbn [vsub vzip map]. replace (c - c) with 0 by ring. reflexivity.
  - replace (c / c) with 1 by (field; lra). rewrite Rmult_1_l. apply Rmult_lt_0_compat; auto.
Qed.
Definition lone (w : R) : Z -> option R := fun _ => Some w.
Lemma one_active : forall c w x lam tol fuel, 0 < c -> 0 < w -> / 10 ^ 6 < w -> 0 < x -> 0 <= tol -> (20 < fuel)%nat -> (1 / 2) ^ 50 < c / (w + / 10 ^ 5) <= 2 ^ 50 ->
  exists m, Rabs (m - c / (w + / 10 ^ 5)) <= / 10 ^ 6 * (1 + / 10 ^ 6) * (c / (w + / 10 ^ 5)) /\ 
  sg_check [1%Z] [0] (lone w) [- c] [x] lam tol fuel = Ok ([gtb (lam * (1 - tol)) m], ranks_of [0] tol).
Proof.
  intros c w x lam tol fuel Hc Hw Hw' Hx Ht Hf HD. destruct (one_search c w fuel Hc Hw Hf HD) as (m & l & E & B & M & L). exists m. split; auto. unfold sg_check. rewrite (eq_refl : g_ids [1%Z] = [1%Z]). cbn [rall]. unfold sg_one. rewrite !zpick_block. unfold block. cbn [pick Z.eqb Pos.eqb combine filter map fst snd]. unfold weight_of, lone.
  assert (Ex : norm [x] = x) by (rewrite norm1, Rabs_pos_eq; lra). rewrite Ex. replace (gtb (x * w + vsum (vabs (vmul [x] [0]))) (/ 10 ^ 6 * x)) with true.
  2:{ symmetry. apply gtb_true. unfold vsum, vabs. cbn. rewrite Rmult_0_r, Rabs_R0. nra. }
  cbn [vopp map]. rewrite Ropp_involutive. unfold sg_active_check. rewrite E. cbn [rbind rmap]. unfold ext_terms. cbn [map fold_right fst snd].
  assert (S1 : gtb (norm (map snd (filter (fun p : R * R => negb (is0 (fst p))) (combine [x] (vzip Rminus [0] (vzip (fun a b => a * np_sign b * lam) [0] [x])))))) (tol * Rmax 1 x) = false).
  { apply gtb_false. cbn [vzip combine filter fst]. replace (is0 x) with false by (symmetry; apply is0_false; lra). cbn [negb map snd]. rewrite norm1. replace (0 - 0 * np_sign x * lam) with 0 by ring. rewrite Rabs_R0. apply Rmult_le_pos; auto. apply Rle_trans with 1; [lra|apply Rmax_l]. }
  rewrite Ex. rewrite S1. assert (El : norm [l] = l) by (rewrite norm1, Rabs_pos_eq; lra). rewrite El. replace (is0 l) with false by (symmetry; apply is0_false; lra). replace (is0 x) with false by (symmetry; apply is0_false; lra).
  assert (S2 : gtb (norm (vsub (map (fun a => a / l) [l]) (map (fun a => a / x) [x]))) tol = false).
  { apply gtb_false. cbn [map vsub vzip]. replace (l / l - x / x) with 0 by (field; lra). rewrite norm1, Rabs_R0. auto. }
  cbn [map] in S2. rewrite S2, !orb_false_r. reflexivity.
Qed.
Lemma rank_zero : forall tol, 0 <= tol -> Forall (fun a => a < 0) (ranks_of [0] tol).
Proof. intros tol Ht. unfold ranks_of. cbn [length seq map nth]. destruct (Rle_dec 0 (1 + tol)); [|lra]. repeat constructor. lra. Qed.
(** the gradient of a group off zero may be as large as one likes *)
Theorem sg_sound_wrong : forall fuel, (20 < fuel)%nat -> exists r, sg_check [1%Z] [0] (lone 1) [-100] [1] 1 kkt_tol fuel = Ok r /\ passes r /\ is_gradient 1 (half_sq 101) [1] [-100] /\
  half_sq 101 [100] + 1 * sparse_penalty [1%Z] [0] (fun _ => 1) [100] < half_sq 101 [1] + 1 * sparse_penalty [1%Z] [0] (fun _ => 1) [1] - 4900.
Proof.
  intros fuel Hf. assert (Kt := kkt_tol_pos). assert (K1 : kkt_tol < 1) by (unfold kkt_tol; lra). destruct (one_active 100 1 1 1 kkt_tol fuel) as (m & B & E); auto; try lra.
  replace (IZR (-100)) with (- (100)) by lra. eexists. split; [exact E|]. split; [|split].
  - split; cbn [fst snd]; [|apply rank_zero; lra]. repeat constructor. apply gtb_false. assert (9 <= m); [|lra]. revert B. unfold Rabs. destruct (Rcase_abs _); lra.
  - replace (- (100)) with (1 - 101) by ring. apply half_sq_gradient.
  - rewrite !one_penalty. unfold half_sq. cbn [vsub vzip]. unfold sqn, dot, vsum. cbn [vmul vzip fold_right]. rewrite !Rabs_pos_eq by lra. lra.
Qed.
(** the minimizer fails when the weight of the group is tiny *)
Theorem sg_complete_wrong : forall fuel, (20 < fuel)%nat -> let y := 1 + 2 / 10 ^ 6 in let w := 2 / 10 ^ 6 in
  exists r, sg_check [1%Z] [0] (lone w) [- w] [1] 1 kkt_tol fuel = Ok r /\ ~ passes r /\ is_gradient 1 (half_sq y) [1] [- w] /\
  forall v, length v = 1%nat -> half_sq y [1] + 1 * sparse_penalty [1%Z] [0] (fun _ => w) [1] <= half_sq y v + 1 * sparse_penalty [1%Z] [0] (fun _ => w) v.
Proof.
  intros fuel Hf y w. assert (Kt := kkt_tol_pos). assert (K1 : kkt_tol <= 1 / 2) by (unfold kkt_tol; lra). destruct (one_active w w 1 1 kkt_tol fuel) as (m & B & E); auto; unfold w in *; try lra.
  eexists. split; [exact E|]. split; [|split].
  - intros (P & _). cbn [fst] in P. apply Forall_inv in P. apply gtb_false in P. assert (m <= 1 / 4); [|lra]. revert B. unfold Rabs. destruct (Rcase_abs _); lra.
  - replace (- (2 / 10 ^ 6)) with (1 - y) by (unfold y; ring). apply half_sq_gradient.
  - intros [|v [|]] Lv; try discriminate. rewrite !one_penalty. unfold half_sq. cbn [vsub vzip]. unfold sqn, dot, vsum. cbn [vmul vzip fold_right]. assert (A := Rle_abs v). rewrite (Rabs_pos_eq 1) by lra. unfold y. assert (0 <= (v - 1) * (v - 1)) by apply Rle_0_sqr. clear - A H. lra.
Qed.
(** ** the ridge term *)
Theorem sg_ridge : forall grad func X groups lw given enet alpha l1_alpha fuel s z lam lam', let P := sparse_group_path grad func X groups lw given enet alpha l1_alpha fuel in
  path_gradient (gq_base P) s z lam = path_gradient (gq_base P) s z lam'.
Proof.
  intros grad func X groups lw given enet alpha l1_alpha fuel s z lam lam' P. unfold path_gradient. f_equal. unfold enet_grad. apply map_ext. intros j. unfold enet_entry. cbn [gq_base P sparse_group_path lp_weights lp_alpha lp_enet].
  replace (is0 (nth j (zeros (length groups)) 0)) with true; auto. symmetry. apply is0_true. unfold zeros. apply nth_repeat.
Qed.
(** ** subsampling *)
Theorem group_subsample_same : forall grad func X groups given enet alpha, group_subsample grad func X groups given enet alpha = group_path grad func X groups (filled given groups) enet alpha.
Proof. reflexivity. Qed.
Lemma weight_filled : forall given groups labels g, In g groups -> weight_of (filled given groups) labels g = group_weight given groups g.
Proof. intros given groups labels g H. unfold weight_of, filled. replace (existsb (Z.eqb g) groups) with true; auto. symmetry. apply existsb_exists. exists g. split; auto. apply Z.eqb_refl. Qed.
Theorem group_subsample_keeps : forall grad func X groups given enet alpha, let S := group_subsample grad func X groups given enet alpha in let P := group_path grad func X groups given enet alpha in
  lp_weights (gq_base S) = lp_weights (gq_base P) /\ (forall g c n, gq_strong S g c n = gq_strong P g c n) /\ forall v g s l, gq_check S v g s l = gq_check P v g s l.
Proof.
  intros grad func X groups given enet alpha S P. assert (F : filled (filled given groups) groups = filled given groups \/ forall g, filled (filled given groups) groups g = filled given groups g).
  { right. intros g. destruct (existsb (Z.eqb g) groups) eqn:E; [|unfold filled; rewrite !E; reflexivity]. pose proof E as E'. apply existsb_exists in E. destruct E as (h & Hh & E). apply Z.eqb_eq in E. subst h.
    assert (K := weight_filled given groups groups g Hh). transitivity (Some (weight_of (filled given groups) groups g)); [unfold filled at 1; rewrite E'; reflexivity|]. rewrite K. unfold filled. rewrite E'. reflexivity. }
  assert (W : forall labels g, weight_of (filled (filled given groups) groups) labels g = weight_of (filled given groups) labels g). { intros labels g. unfold weight_of. destruct F as [-> |F]; auto. rewrite F. auto. }
  split; [|split].
  - cbn. apply map_ext. intros g. apply W.
  - intros g c n. cbn. unfold g_strong, g_terms. f_equal. apply map_ext. intros h. rewrite !W. reflexivity.
  - intros v g s l. cbn. f_equal. unfold g_check. f_equal.
    + apply map_ext. intros h. unfold g_active_fails. rewrite !W. replace (g_warr (labels_at groups v) (filled (filled given groups) groups)) with (g_warr (labels_at groups v) (filled given groups)); auto. unfold g_warr. apply map_ext. intros. symmetry. apply W.
    + f_equal. apply map_ext. intros h. unfold g_inactive_term. rewrite !W. reflexivity.
Qed.
Lemma strong_one : forall grad func X enet alpha l1 fuel given w c, weight_of (sg_weights [1%Z] given l1) [1%Z] 1 = w -> 0 <= c ->
  gq_strong (sparse_group_path grad func X [1%Z] [0] given enet alpha l1 fuel) [c] 1 1 = [negb (if Rle_dec c (w + / 10 ^ 5) then true else false)].
Proof.
  intros grad func X enet alpha l1 fuel given w c W Hc. cbn [gq_strong sparse_group_path]. unfold sg_strong. rewrite (eq_refl : g_ids [1%Z] = [1%Z]). cbn [map]. rewrite W, !zpick_block. unfold block, sg_lasso. cbn. unfold inside_set_strong, soft_pos. cbn [vzip].
  replace (Rabs c - (2 * 1 - 1) * (0 * l1)) with c by (rewrite Rabs_pos_eq by auto; ring). rewrite Rmax_left, norm1, Rabs_pos_eq by auto. replace ((2 * 1 - 1) * (w + / 10 ^ 5)) with (w + / 10 ^ 5) by ring. reflexivity.
Qed.
Theorem sg_subsample_wrong : forall grad func X enet alpha fuel,
  gq_strong (sparse_group_path grad func X [1%Z] [0] (lone 1) enet alpha (1 / 2) fuel) [4 / 10] 1 1 = [false] /\
  gq_strong (sparse_group_subsample grad func X [1%Z] [0] (lone 1) enet alpha (1 / 2) fuel) [4 / 10] 1 1 = [true].
Proof.
  intros. split.
  - rewrite (strong_one _ _ _ _ _ _ _ _ (1 / 2)) by (try lra; unfold weight_of, sg_weights, lone, filled; cbn; unfold weight_of; cbn; lra). destruct (Rle_dec _ _); auto. lra.
  - unfold sparse_group_subsample. replace (sg_lasso [0] (1 / 2)) with [0] by (unfold sg_lasso; cbn; f_equal; ring). rewrite (strong_one _ _ _ _ _ _ _ _ (1 / 4)) by (try lra; unfold weight_of, sg_weights, lone, filled; cbn; unfold weight_of; cbn; lra). destruct (Rle_dec _ _); auto. lra.
Qed.
Lemma sg_check_lengths : forall labels lw weights grad s lam tol fuel r, sg_check labels lw weights grad s lam tol fuel = Ok r -> length (fst r) = length (snd r).
Proof. intros labels lw weights grad s lam tol fuel r E. unfold sg_check in E. destruct (rall _ _) as [rs|e]; [|discriminate]. cbn [rmap] in E. apply Ok_inj in E. subst r. cbn [fst snd]. rewrite ranks_of_length. unfold ext_terms. rewrite !map_length. reflexivity. Qed.
Lemma sg_failing_none : forall chk r, existsb (fun b => b) (failing_mask chk r) = false -> length (fst r) = length (snd r) -> inactive_passes r /\ (chk = true -> passes r).
Proof.
  intros chk r H L. apply gnone_failing in H; auto. 
Qed.
