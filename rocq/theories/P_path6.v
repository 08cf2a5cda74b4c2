(** The null solution; worked examples. *)
From Coq Require Import Reals List Lra Lia Arith Bool.
From Verif Require Import M_affine SpecAffine P_affine P_affine2 M_loss SpecLoss SpecSmooth P_smooth Vec Spec SpecConvex M_quad M_prox M_semi M_weighted P_quad P_calc P_sep P_feas M_problem M_cv SpecCv P_cv M_path SpecPath P_path P_path2 P_path3 P_path4 P_path5.
From Verif Require P_buffer P_separable.
Import ListNotations.
Local Open Scope R_scope.

Lemma mean_some : forall w, (exists j, (j < length w)%nat /\ 0 < nth j w 0) -> exists m, mean_weight w = Some m.
Proof.
  intros w (j & Hj & Pj). unfold mean_weight. assert (I : In (nth j w 0) (filter (fun a => gtb a 0) w)) by (apply filter_In; split; [apply nth_In; auto|apply gtb_true; auto]). destruct (filter (fun a => gtb a 0) w) as [|a l]; [destruct I|]. eexists. reflexivity.
Qed.
Lemma zero_slack : forall n (F : nat -> R), 0 * sum_over n F = 0.
Proof. intros. lra. Qed.
Section Path.
Variable P : lpath.
Hypothesis GP : good_path P.
Let p := lp_size P.
Let w := lp_weights P.
Lemma null_gradient : forall s lam, null_solution P s -> path_gradient P s (t_lin (lp_X P) s) lam = path_gradient P s (t_lin (lp_X P) s) 1.
Proof.
  intros s lam (Ls & Z & _). unfold path_gradient. f_equal. unfold enet_grad. apply map_ext. intros j. unfold enet_entry. destruct (is0 (nth j (lp_weights P) 0)) eqn:E; auto. apply is0_false in E. rewrite Z by auto. ring.
Qed.
Theorem null_optimal : forall s prop nstep ls lam, null_solution P s -> (exists j, (j < p)%nat /\ 0 < nth j w 0) -> (2 <= nstep)%nat -> default_lagrange_sequence w (path_gradient P s (t_lin (lp_X P) s) 1) prop nstep (lp_alpha P) = Ok ls -> nth 0 ls 0 <= lam -> 0 < lam ->
  forall v, length v = p -> path_objective P lam s <= path_objective P lam v.
Proof.
  intros s prop nstep ls lam NS Ex Hn E Hl0 Hl v Lv. assert (NS' := NS). destruct NS' as (Ls & Z & St). destruct (gp_w _ GP) as (Lw & Nw). fold p w in Lw, Ls. fold w in Nw. assert (Al := alpha_lam P GP lam Hl). destruct (gp_alpha _ GP) as (Ha & _).
  set (g := path_gradient P s (t_lin (lp_X P) s) 1) in *. assert (G := path_gradient_right P GP lam s Ls). rewrite (null_gradient s lam NS) in G. fold g in G. assert (Lg : length g = p) by apply G.
  destruct (sequence_max w g prop nstep (lp_alpha P)) as (M & E' & B & PM); [congruence|auto|rewrite Lw; auto|]. rewrite E in E'. apply Ok_inj in E'. rewrite E' in Hl0. rewrite sequence_nth in Hl0 by lia. cbn [INR] in Hl0. unfold Rdiv at 2 in Hl0. rewrite Rmult_0_l, Rmult_0_r, exp_0, Rmult_1_r in Hl0.
  assert (Ml : M <= lp_alpha P * lam). { apply (Rmult_le_compat_l (lp_alpha P)) in Hl0; [|lra]. replace (lp_alpha P * (M / lp_alpha P)) with M in Hl0 by (field; lra). auto. }
  destruct (mean_some w) as (m & Em); [rewrite Lw; auto|].
  assert (K := kkt_sound p (smooth_part P lam) w g s (lp_alpha P * lam) 0 m (smooth_convex P GP lam ltac:(lra)) G Ls Lw Nw Al ltac:(lra) Em). unfold path_objective. fold p w. rewrite <- (Rplus_0_r (lasso_objective p (smooth_part P lam) w (lp_alpha P * lam) v)). rewrite <- (zero_slack p (fun j => slack w (lp_alpha P * lam) m j * Rabs (nth j v 0 - nth j s 0))). apply K; auto.
  apply passes_iff. rewrite Ls. split; intros j Hj.
  - unfold active_fails. destruct (is0 (nth j w 0)) eqn:E0; [apply is0_true in E0; rewrite Em; apply gtb_false; rewrite (St j E0); unfold Rdiv; rewrite Rmult_0_l, Rabs_R0; lra|]. apply is0_false in E0. rewrite (Z j E0). replace (is0 0) with true by (symmetry; apply is0_true; auto). reflexivity.
  - unfold inactive_term. destruct (is0 (nth j s 0) && gtb (nth j w 0) 0) eqn:E0; [|lra]. apply andb_true_iff in E0 as (_ & E0). apply gtb_true in E0. specialize (B j ltac:(lia) E0). assert (Pd : 0 < lp_alpha P * lam * nth j w 0) by (apply Rmult_lt_0_compat; auto). unfold Rdiv. rewrite Rabs_mult, (Rabs_right (/ _)) by (apply Rle_ge, Rlt_le, Rinv_0_lt_compat; auto).
    apply (Rmult_le_reg_r (lp_alpha P * lam * nth j w 0)); auto. rewrite Rmult_assoc, Rinv_l by lra. assert (M * nth j w 0 <= lp_alpha P * lam * nth j w 0) by (apply Rmult_le_compat_r; lra). lra.
Qed.
(** below it is not *)
Theorem null_not_optimal : forall s prop nstep ls lam, null_solution P s -> (exists j, (j < p)%nat /\ 0 < nth j w 0 /\ nth j (path_gradient P s (t_lin (lp_X P) s) 1) 0 <> 0) -> 0 < prop < 1 -> (2 <= nstep)%nat -> default_lagrange_sequence w (path_gradient P s (t_lin (lp_X P) s) 1) prop nstep (lp_alpha P) = Ok ls -> 0 < lam < nth 0 ls 0 ->
  ~ forall v, length v = p -> path_objective P lam s <= path_objective P lam v.
Proof.
  intros s prop nstep ls lam NS Ex Hp Hn E (Hl & Hl0) C. assert (NS' := NS). destruct NS' as (Ls & Z & St). destruct (gp_w _ GP) as (Lw & Nw). fold p w in Lw, Ls. fold w in Nw. assert (Al := alpha_lam P GP lam Hl). destruct (gp_alpha _ GP) as (Ha & _).
  set (g := path_gradient P s (t_lin (lp_X P) s) 1) in *. assert (G := path_gradient_right P GP lam s Ls). rewrite (null_gradient s lam NS) in G. fold g in G. assert (Lg : length g = p) by apply G.
  destruct (sequence_shape w g prop nstep (lp_alpha P) ls) as (_ & _ & _ & _ & j & Hj & Pj & Ej); auto; [congruence|rewrite Lw; auto|].
  assert (K := kkt_complete p (smooth_part P lam) w g s (lp_alpha P * lam) 0 G Ls Lw Nw Al ltac:(lra) C). apply passes_iff in K. rewrite Ls in K. destruct K as (_ & K). specialize (K j ltac:(lia)). unfold inactive_term in K. fold w in Z. rewrite Z in K by lra. replace (is0 0) with true in K by (symmetry; apply is0_true; auto). replace (gtb (nth j w 0) 0) with true in K by (symmetry; apply gtb_true; auto). cbn [andb] in K.
  apply abs_div_le in K; [|apply Rmult_lt_0_compat; auto]. rewrite Ej in K. assert (lp_alpha P * lam < lp_alpha P * nth 0 ls 0) by (apply Rmult_lt_compat_l; auto). assert (lp_alpha P * lam * nth j w 0 < lp_alpha P * nth 0 ls 0 * nth j w 0) by (apply Rmult_lt_compat_r; auto). lra.
Qed.
End Path.
(** one step: the sequence starts below *)
Theorem one_step : forall w g prop alpha, length g = length w -> nonneg w -> (exists j, (j < length w)%nat /\ 0 < nth j w 0) -> 0 < prop -> 0 < alpha -> exists M, default_lagrange_sequence w g prop 1 alpha = Ok [M * prop / alpha] /\ default_lagrange_sequence w g prop 2 alpha = Ok [M / alpha; M * prop / alpha].
Proof.
  intros w g prop alpha L Nw Ex Hp Ha. destruct (np_max_spec _ (dual_nonempty w g L Ex)) as (M & EM & _ & _). exists M. unfold default_lagrange_sequence, w_seminorm. cbn [andb]. rewrite EM. cbn [rmap rbind]. rewrite Rmult_1_l. split; f_equal; cbn [linspace map seq rev app].
  - rewrite exp_ln by auto. reflexivity.
  - cbn [INR Nat.sub]. repeat f_equal; [replace (ln prop + 1 * ((0 - ln prop) / 1)) with 0 by field; rewrite exp_0; ring|]. replace (ln prop + 0 * ((0 - ln prop) / 1)) with (ln prop) by field. apply exp_ln. auto.
Qed.

(** ** least squares paths *)
Definition gauss_path (D : list vec) (q : nat) (y w e : vec) (alpha : R) : lpath := mk_lpath (fun v => vsub v y) (fun v => / 2 * sqn (vsub v y)) (matrix D q None) w e alpha.
Lemma shifted_line : forall n (x d y : vec) t, length x = n -> length d = n -> length y = n -> vsub (vadd x (vscal t d)) y = vadd (vsub x y) (vscal t d).
Proof.
  intros n x d y t Lx Ld Ly. assert (Ls : length (vscal t d) = n) by (unfold vscal; rewrite map_length; auto). apply (nth_ext _ _ 0 0); [unfold vadd, vsub; rewrite !(vzip_length2 _ _ _ n); auto; apply vzip_length2; auto|]. intros i Hi. unfold vsub in Hi at 1. rewrite (vzip_length2 _ _ _ n) in Hi by (auto; unfold vadd; apply vzip_length2; auto).
  unfold vsub, vadd. rewrite !(nth_zip0 _ _ _ n); auto; try (apply vzip_length2; auto). ring.
Qed.
Lemma half_line : forall n (x d y : vec) t, length x = n -> length d = n -> length y = n -> / 2 * sqn (vsub (vadd x (vscal t d)) y) = / 2 * sqn (vsub x y) + (t * dot (vsub x y) d + t * t * (/ 2 * sqn d)).
Proof. intros n x d y t Lx Ld Ly. rewrite (shifted_line n) by auto. rewrite sqn_add, sqn_scal, dot_scal_r; [field|]. unfold vscal. rewrite map_length. unfold vsub. rewrite (vzip_length2 _ _ _ n); auto. Qed.
Lemma gauss_good : forall D q y w e alpha, Forall (fun r => length r = q) D -> length y = length D -> length w = q -> nonneg w -> length e = q -> nonneg e -> 0 < alpha <= 1 -> good_path (gauss_path D q y w e alpha).
Proof.
  intros D q y w e alpha FD Ly Lw Nw Le Ne Ha. assert (B : built (matrix D q None)) by (apply b_matrix; [auto|discriminate]). assert (G := built_good _ B). split; cbn [gauss_path lp_X lp_weights lp_enet lp_alpha lp_func lp_grad lp_size t_in t_out matrix]; auto.
  - split; [apply G|]. split; [apply G|]. auto.
  - intros x z t Lx Lz Ht. unfold between. assert (Ld : length (vsub z x) = length D) by (unfold vsub; apply vzip_length2; auto). rewrite (half_line (length D)) by auto. assert (E := half_line (length D) x (vsub z x) y 1 Lx Ld Ly). replace (vadd x (vscal 1 (vsub z x))) with z in E; [|rewrite vscal_1, vadd_comm; symmetry; apply vadd_vsub; congruence]. rewrite E. assert (S := sqn_nonneg (vsub z x)). assert (0 <= t * (1 - t) * sqn (vsub z x)) by (apply Rmult_le_pos; [apply Rmult_le_pos; lra|auto]). nra.
  - intros x Lx. split; [unfold vsub; apply vzip_length2; auto|]. intros d Ld. apply derive_ext with (F := fun t => / 2 * sqn (vsub x y) + (t * dot (vsub x y) d + t * t * (/ 2 * sqn d))); [intros t; symmetry; apply (half_line (length D)); auto|].
    assert (D1 := derivable_pt_lim_plus _ _ 0 _ _ (derivable_pt_lim_const (/ 2 * sqn (vsub x y)) 0) (derive_quad (dot (vsub x y) d) (/ 2 * sqn d) 0)). replace (0 + (dot (vsub x y) d + 2 * 0 * (/ 2 * sqn d))) with (dot (vsub x y) d) in D1 by ring. exact D1.
Qed.

Lemma failing1 : forall w g s lam, failing false [w] [g] [s] lam = [gtb (inactive_term [w] [g] [s] lam 0) (1 + kkt_tol)].
Proof. intros w g s lam. apply (nth_ext _ _ false false); [rewrite failing_length; auto|]. intros i Hi. rewrite failing_length in Hi. rewrite failing_nth by auto. cbn [length] in Hi. destruct i; [reflexivity|lia]. Qed.
Lemma failing2 : forall w0 w1 g0 g1 s0 s1 lam, failing false [w0; w1] [g0; g1] [s0; s1] lam = [gtb (inactive_term [w0] [g0] [s0] lam 0) (1 + kkt_tol); gtb (inactive_term [w1] [g1] [s1] lam 0) (1 + kkt_tol)].
Proof. intros. apply (nth_ext _ _ false false); [rewrite failing_length; auto|]. intros i Hi. rewrite failing_length in Hi. rewrite failing_nth by auto. cbn [length] in Hi. destruct i as [|[|i]]; [reflexivity|reflexivity|lia]. Qed.
Lemma term_active : forall w g s lam, s <> 0 -> gtb (inactive_term [w] [g] [s] lam 0) (1 + kkt_tol) = false.
Proof. intros w g s lam H. unfold inactive_term. cbn [nth]. replace (is0 s) with false by (symmetry; apply is0_false; auto). cbn [andb]. apply gtb_false. unfold kkt_tol. lra. Qed.
Lemma term_free : forall g s lam, gtb (inactive_term [0] [g] [s] lam 0) (1 + kkt_tol) = false.
Proof. intros g s lam. unfold inactive_term. cbn [nth]. replace (gtb 0 0) with false by (symmetry; apply gtb_false; lra). rewrite andb_false_r. apply gtb_false. unfold kkt_tol. lra. Qed.
Lemma term_large : forall w g lam, 0 < w -> 0 < lam -> 2 * (lam * w) <= Rabs g -> gtb (inactive_term [w] [g] [0] lam 0) (1 + kkt_tol) = true.
Proof.
  intros w g lam Hw Hl H. unfold inactive_term. cbn [nth]. replace (is0 0) with true by (symmetry; apply is0_true; auto). replace (gtb w 0) with true by (symmetry; apply gtb_true; auto). cbn [andb]. apply gtb_true. assert (Pd : 0 < lam * w) by (apply Rmult_lt_0_compat; auto). unfold Rdiv. rewrite Rabs_mult, (Rabs_right (/ _)) by (apply Rle_ge, Rlt_le, Rinv_0_lt_compat; auto).
  apply (Rmult_lt_reg_r (lam * w)); auto. rewrite Rmult_assoc, Rinv_l by lra. unfold kkt_tol. lra.
Qed.
(** one feature: (c - y)^2 / 2 + l |c| *)
Definition one_path (y : R) : lpath := gauss_path [[1]] 1 [y] [1] [0] 1.
Definition soft (y l : R) : R := if Rle_dec l y then y - l else 0.
Definition one_solver (y : R) : solver := fun _ _ set l => map (fun _ => soft y l) set.
Lemma one_good : forall y, good_path (one_path y).
Proof. intros y. apply gauss_good; auto; try lra; repeat constructor; lra. Qed.
Lemma one_objective : forall y l c, path_objective (one_path y) l [c] = / 2 * ((c - y) * (c - y)) + l * Rabs c.
Proof. intros y l c. unfold path_objective, lasso_objective, smooth_part, one_path, gauss_path. cbn. unfold dot, vsum, sqn, dot, vsum. cbn. destruct (Req_EM_T 1 0); lra. Qed.
Lemma one_sets : forall set, index_set 1 set -> set = [] \/ set = [0%nat].
Proof. intros set (N & F). destruct set as [|a set]; auto. right. apply Forall_inv in F as Ha. apply Forall_inv_tail in F. assert (a = 0%nat) by lia. subst. f_equal. destruct set as [|b set]; auto. apply Forall_inv in F. assert (b = 0%nat) by lia. subst. apply NoDup_cons_iff in N. exfalso. apply N. left; auto. Qed.
Lemma soft_min : forall y l c, 0 <= y -> 0 < l -> / 2 * ((soft y l - y) * (soft y l - y)) + l * Rabs (soft y l) <= / 2 * ((c - y) * (c - y)) + l * Rabs c.
Proof.
  intros y l c Hy Hl. unfold soft. destruct (Rle_dec l y).
  - rewrite (Rabs_right (y - l)) by lra. assert (c <= Rabs c) by apply Rle_abs. assert (0 <= (c - (y - l)) * (c - (y - l))) by apply Rle_0_sqr. assert (l * c <= l * Rabs c) by (apply Rmult_le_compat_l; lra). lra.
  - rewrite Rabs_R0. assert (A := Rle_abs c). assert (B := Rabs_pos c). assert (0 <= c * c) by apply Rle_0_sqr. assert (y * c <= l * Rabs c) by (apply Rle_trans with (y * Rabs c); [apply Rmult_le_compat_l; lra|apply Rmult_le_compat_r; lra]). lra.
Qed.
Lemma one_exact : forall y, 0 <= y -> exact_solver (one_path y) (one_solver y) /\ right_size (one_solver y).
Proof.
  intros y Hy. split; [|intros k v set l; apply map_length]. intros k v set l I Hl. unfold one_solver. destruct (one_sets set I) as [-> | ->]; cbn [map].
  - split; auto. split; [eexists; reflexivity|]. intros c Lc. destruct c; [|discriminate]. cbn. lra.
  - split; auto. split; [eexists; reflexivity|]. intros c Lc. destruct c as [|c [|]]; try discriminate. change (embed (lp_size (one_path y)) [0%nat] [soft y l]) with [soft y l]. change (embed (lp_size (one_path y)) [0%nat] [c]) with [c]. rewrite !one_objective. cbn [ext_le]. apply soft_min; auto.
Qed.
Lemma one_gradient : forall y l s, path_gradient (one_path y) [s] (t_lin (lp_X (one_path y)) [s]) l = [s - y].
Proof. intros y l s. unfold path_gradient, one_path, gauss_path. cbn. unfold dot, vsum, enet_entry. cbn. destruct (is0 1); f_equal; lra. Qed.
Lemma one_zeros : zeros (lp_size (one_path 10)) = [0].
Proof. reflexivity. Qed.
Lemma more_tries : forall P, good_path P -> forall S chk max_tries lcur lnew fuel num st pt st', right_size S -> state_ok P st -> (Datatypes.S num mod 5 <> 0)%nat -> fst (fst (fst (try_once P S chk lcur lnew st))) <> true -> tries (Datatypes.S fuel) P S chk max_tries lcur lnew num st = Ok (pt, st') -> (Datatypes.S num < pt_tries pt)%nat.
Proof.
  intros P GP S chk max_tries lcur lnew fuel num st pt st' RS OK M5 F T. cbn [tries] in T. destruct (try_once P S chk lcur lnew st) as [[[ok sub] lin] st1] eqn:E. cbn [fst] in F. destruct ok; [congruence|]. apply Nat.eqb_neq in M5. rewrite M5 in T. cbn [andb] in T.
  destruct (try_spec P GP _ _ _ _ _ _ _ _ _ RS OK E) as ((L1 & I1 & Z1) & _). assert (OK2 : state_ok P (mk_pstate (s_sol st1) (s_gsol st1) (s_fail st1) (union (lp_size P) (s_set st1) (picked (s_fail st1))) (s_calls st1))). { split; auto. split; [apply union_index|]. intros j Nj. apply Z1. intros Hj. apply Nj. apply union_In. split; auto. destruct I1 as (_ & Fi). rewrite Forall_forall in Fi. apply Fi. auto. }
  destruct (tries_spec P GP S chk max_tries lcur lnew fuel (Datatypes.S num) _ pt st' RS OK2 T) as (_ & _ & _ & Lo & _). exact Lo.
Qed.
(** max_tries = 1, two solves *)
Theorem too_many : exists pts pt, strong_rules 5 (one_path 10) (one_solver 10) false 1 [9; 1] [0] [-10] = Ok pts /\ In pt pts /\ pt_tries pt = 2%nat.
Proof.
  destruct (one_exact 10 ltac:(lra)) as (XS & RS). set (P := one_path 10) in *. assert (GP : good_path P) by apply one_good. assert (OK : state_ok P (start_state P [0] [-10])) by apply (start_ok P).
  destruct (tries_ends P (one_solver 10) false 1 9 1 5 0 (start_state P [0] [-10])) as (pt & st' & T & _); [unfold bound; cbn; lia|].
  unfold strong_rules. cbn [run_path]. rewrite T. cbn [rbind fst snd]. eexists; exists pt. split; [reflexivity|]. split; [left; auto|].
  destruct (tries_exact P GP (one_solver 10) false 1 9 1 RS XS ltac:(lra) 5 0 _ pt st' OK) as (_ & Up & _); [reflexivity|lia|exact T|]. change (lp_size P) with 1%nat in Up.
  assert (Lo : (1 < pt_tries pt)%nat); [|lia]. refine (more_tries P GP _ _ _ _ _ 4 0 _ _ _ RS OK _ _ T); [cbn; lia|]. intros Ok1. destruct (try_once P (one_solver 10) false 9 1 (start_state P [0] [-10])) as [[[ok sub] lin] st1] eqn:E. cbn [fst] in Ok1. subst ok.
  destruct (try_spec P GP _ _ _ _ _ _ _ _ _ RS OK E) as (_ & Es & Eb & Sol & _ & Pass). change (s_set st1 = []) in Es. rewrite Es in Eb, Sol. cbn in Eb. subst sub. change (s_sol st1 = [0]) in Sol.
  specialize (Pass eq_refl). unfold at_solution in Pass. rewrite Sol in Pass. unfold P in Pass. rewrite one_gradient in Pass. change (lp_weights (one_path 10)) with [1] in Pass. change (lp_alpha (one_path 10)) with 1 in Pass. rewrite failing1, term_large in Pass; [discriminate|lra|lra|]. rewrite (Rabs_left (0 - 10)) by lra. lra.
Qed.

(** ** an unpenalized feature left out: features x1 = x2 = 1, y = 2, weights 0 and 1 *)
Definition free_path : lpath := gauss_path [[1; 1]] 2 [2] [0; 1] [0; 0] 1.
Definition free_solver : solver := fun _ _ set _ => map (fun _ => 3 / 2) set.
Lemma free_good : good_path free_path.
Proof. apply gauss_good; auto; try lra; repeat constructor; lra. Qed.
Lemma free_objective : forall l a b, path_objective free_path l [a; b] = / 2 * ((a + b - 2) * (a + b - 2)) + l * Rabs b.
Proof. intros l a b. unfold path_objective, lasso_objective, smooth_part, free_path, gauss_path. cbn. unfold sqn, dot, vsum. cbn. destruct (Req_EM_T 1 0), (Req_EM_T 0 0); lra. Qed.
Lemma free_gradient : forall l a b c, path_gradient free_path [a; b] [c] l = [c - 2; c - 2].
Proof. intros l a b c. unfold path_gradient, free_path, gauss_path. cbn. unfold dot, vsum, enet_entry. cbn. destruct (is0 1), (is0 0); f_equal; try lra; f_equal; lra. Qed.
Lemma free_first : try_once free_path free_solver false 1 (/ 2) (start_state free_path [2; 0] [0; 0]) = (false, [], [0], mk_pstate [2; 0] [-2; -2] [false; true] [] 1).
Proof.
  unfold try_once. change (s_set (start_state free_path [2; 0] [0; 0])) with (@nil nat). change (s_fail (start_state free_path [2; 0] [0; 0])) with [false; false]. change (picked [false; false]) with (@nil nat). change (union (lp_size free_path) [] []) with (@nil nat). cbn [free_solver map s_sol s_gsol s_calls start_state subsample_columns mat_tvec M_affine.scatter].
  assert (SM : strong_mask (lp_weights free_path) [0; 0] (1 * lp_alpha free_path) (/ 2 * lp_alpha free_path) = [true; false]). { unfold strong_mask. cbn. replace (is0 0) with true by (symmetry; apply is0_true; auto). replace (is0 1) with false by (symmetry; apply is0_false; lra). replace (gtb (Rabs 0 / 1) (2 * (/ 2 * 1) - 1 * 1)) with false; auto. symmetry. apply gtb_false. rewrite Rabs_R0. lra. }
  rewrite SM. change (picked [true; false]) with [0%nat]. change (zeros (t_out (lp_X free_path))) with [0]. set (sg := vadd _ _). change (gather [0%nat] (lp_weights free_path)) with [0]. change (gather [0%nat] [2; 0]) with [2].
  assert (Lg : exists g, sg = [g]) by (unfold sg; cbn; eexists; reflexivity). destruct Lg as (g & ->). rewrite failing1, term_active by lra. cbn [existsb orb].
  rewrite free_gradient. change (lp_weights free_path) with [0; 1]. change (lp_alpha free_path) with 1. rewrite failing2, term_active by lra. replace (0 - 2) with (-2) by lra. rewrite term_large by (try lra; rewrite (Rabs_left (-2)) by lra; lra). reflexivity.
Qed.
Lemma free_second : try_once free_path free_solver false 1 (/ 2) (mk_pstate [2; 0] [-2; -2] [false; true] [1%nat] 1) = (true, [3 / 2], [3 / 2], mk_pstate [2; 3 / 2] [- / 2; - / 2] [false; false] [1%nat] 2).
Proof.
  unfold try_once. cbn [s_set s_fail s_sol s_gsol s_calls]. change (picked [false; true]) with [1%nat]. change (union (lp_size free_path) [1%nat] [1%nat]) with [1%nat]. cbn [free_solver map M_affine.scatter].
  assert (LP : mat_tvec (t_out (lp_X free_path)) (subsample_columns (lp_X free_path) [1%nat]) [3 / 2] = [3 / 2]) by (cbn; unfold dot, vsum; cbn; f_equal; lra). rewrite LP.
  assert (SM : strong_mask (lp_weights free_path) [-2; -2] (1 * lp_alpha free_path) (/ 2 * lp_alpha free_path) = [true; true]). { unfold strong_mask. cbn. replace (is0 0) with true by (symmetry; apply is0_true; auto). replace (is0 1) with false by (symmetry; apply is0_false; lra). replace (gtb (Rabs (-2) / 1) (2 * (/ 2 * 1) - 1 * 1)) with true; auto. symmetry. apply gtb_true. rewrite Rabs_left by lra. lra. }
  rewrite SM. change (picked [true; true]) with [0%nat; 1%nat]. set (sg := vadd _ _). change (set_at 1 (3 / 2) [2; 0]) with [2; 3 / 2]. change (gather [0%nat; 1%nat] (lp_weights free_path)) with [0; 1]. change (gather [0%nat; 1%nat] [2; 3 / 2]) with [2; 3 / 2].
  assert (Lg : exists g h, sg = [g; h]) by (unfold sg; cbn; eexists; eexists; reflexivity). destruct Lg as (g & h & ->). rewrite failing2, !term_active by lra. cbn [existsb orb].
  rewrite free_gradient. change (lp_weights free_path) with [0; 1]. change (lp_alpha free_path) with 1. rewrite failing2, !term_active by lra. replace (3 / 2 - 2) with (- / 2) by lra. reflexivity.
Qed.
Theorem free_wrong : forall fuel, exists pt, strong_rules (2 + fuel) free_path free_solver false 20 [1; / 2] [2; 0] [0; 0] = Ok [pt] /\ pt_warned pt = false /\ pt_beta pt = [2; 3 / 2] /\ solves free_path (/ 2) (pt_set pt) (pt_sub pt) /\
  null_solution free_path [2; 0] /\ path_objective free_path (/ 2) [2; 0] < path_objective free_path (/ 2) (pt_beta pt) /\ nth 0 (path_gradient free_path (pt_beta pt) (t_lin (lp_X free_path) (pt_beta pt)) (/ 2)) 0 <> 0.
Proof.
  intros fuel. unfold strong_rules. cbn [run_path Nat.add]. set (f1 := Datatypes.S fuel). cbn [tries]. rewrite free_first. change (1 mod 5)%nat with 1%nat. cbn [Nat.eqb andb s_sol s_gsol s_fail s_set s_calls]. change (union (lp_size free_path) [] (picked [false; true])) with [1%nat].
  unfold f1. cbn [tries]. rewrite free_second. cbn [rbind fst snd s_sol s_set]. eexists. split; [reflexivity|]. cbn [pt_warned pt_beta pt_set pt_sub]. split; [reflexivity|]. split; [reflexivity|]. split.
  - split; auto. split; [eexists; reflexivity|]. intros c Lc. destruct c as [|c [|]]; try discriminate. change (embed (lp_size free_path) [1%nat] [3 / 2]) with [0; 3 / 2]. change (embed (lp_size free_path) [1%nat] [c]) with [0; c]. rewrite !free_objective. cbn [ext_le]. rewrite (Rabs_right (3 / 2)) by lra. assert (c <= Rabs c) by apply Rle_abs. assert (0 <= (c - 3 / 2) * (c - 3 / 2)) by apply Rle_0_sqr. lra.
  - assert (LX : forall a b, t_lin (lp_X free_path) [a; b] = [a + b]) by (intros; cbn; unfold dot, vsum; cbn; f_equal; lra). split; [|split].
    + split; auto. rewrite LX, free_gradient. split; intros [|[|[|j]]]; cbn; intros; try lra; auto.
    + rewrite !free_objective. rewrite Rabs_R0, Rabs_right by lra. lra.
    + rewrite LX, free_gradient. cbn. lra.
Qed.
(** ** BASIL: a value listed twice is solved once; a solver that stops too early keeps it busy for ever *)
Definition idle_solver : solver := fun _ _ set _ => map (fun _ => 0) set.
Lemma idle_embed : forall y set, embed (lp_size (one_path y)) set (map (fun _ => 0) set) = [0].
Proof. intros y set. unfold embed. change (zeros (lp_size (one_path y))) with [0]. induction set as [|i set IH]; cbn; auto. destruct i as [|[|i]]; cbn; exact IH. Qed.
Lemma idle_values : forall y set l ls grad calls, index_set 1 set -> basil_values (one_path y) idle_solver false set [0] grad calls (l :: ls) =
  (let fail := failing false [1] [- y] [0] (1 * l) in if existsb (fun b => b) fail then ([], [- y], Some fail, Datatypes.S calls) else let '(out, g, f, c) := basil_values (one_path y) idle_solver false set [0] [- y] (Datatypes.S calls) ls in ((l, [0]) :: out, g, f, c)).
Proof.
  intros y set l ls grad calls I. cbn [basil_values]. change (idle_solver calls [0] set l) with (map (fun _ : nat => 0) set). assert (Sc : M_affine.scatter set (map (fun _ => 0) set) [0] = [0]) by apply (idle_embed y). rewrite Sc. rewrite (lin_embed (one_path y) (one_good y) set _ I) by apply map_length. rewrite idle_embed. rewrite one_gradient. replace (0 - y) with (- y) by lra. reflexivity.
Qed.
Theorem never_ends : forall fuel grad cand calls, basil_loop fuel (one_path 10) idle_solver false 1 1 [1] [0] grad [] cand calls = Err OutOfFuel.
Proof.
  induction fuel as [|fuel IH]; intros grad cand calls; auto. cbn [basil_loop map basil_start skipn firstn]. unfold basil_inner. rewrite idle_values by apply union_index. cbv zeta. rewrite failing1, term_large by (try lra; rewrite Rabs_Ropp, Rabs_right by lra; lra). cbn [existsb orb app]. apply IH.
Qed.
Theorem value_dropped : forall fuel, basil (2 + fuel) (one_path 0) (one_solver 0) 1 1 [1; 1] [0] [0] = Ok [[0]].
Proof.
  assert (E : forall k v set l, 0 < l -> one_solver 0 k v set l = idle_solver k v set l). { intros k v set l Hl. unfold one_solver, idle_solver, soft. destruct (Rle_dec l 0); [lra|reflexivity]. }
  assert (V : forall set grad calls l, 0 < l -> basil_values (one_path 0) (one_solver 0) false set [0] grad calls [l] = basil_values (one_path 0) idle_solver false set [0] grad calls [l]) by (intros set grad calls l Hl; cbn [basil_values]; rewrite E by auto; reflexivity).
  intros fuel. unfold basil. cbn [Nat.add basil_loop map basil_start skipn firstn]. unfold basil_inner. rewrite V by lra. rewrite idle_values by apply union_index. cbv zeta. rewrite failing1. unfold inactive_term. cbn [nth]. replace (is0 0) with true by (symmetry; apply is0_true; auto). replace (gtb 1 0) with true by (symmetry; apply gtb_true; lra). cbn [andb].
  replace (gtb (Rabs (- 0 / (1 * 1 * 1))) (1 + kkt_tol)) with false by (symmetry; apply gtb_false; replace (- 0 / (1 * 1 * 1)) with 0 by field; rewrite Rabs_R0; unfold kkt_tol; lra). cbn [existsb orb basil_values app]. cbn [basil_start map fst minimum filter]. destruct (Rle_dec 1 1); [|lra]. cbn [length skipn firstn]. reflexivity.
Qed.
