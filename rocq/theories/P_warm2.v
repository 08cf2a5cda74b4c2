(** Paths from end to end with a solver that minimizes, concrete solvers, and X with an offset. *)
From Coq Require Import Reals List Lra Lia Arith Bool ZArith.
From Verif Require P_sgl7.
From Verif Require Import M_affine SpecAffine P_affine Vec Spec SpecConvex M_loss SpecLoss SpecSmooth P_smooth M_semi M_weighted P_quad P_sep M_smooth M_problem M_path SpecPath P_path P_path2 P_path3 P_path4 P_path6
  SpecPart SpecGroup M_mixed M_group M_gpath SpecGpath P_gpath P_gpath3 P_gpath4 P_gpath5 M_subprob SpecSgpath SpecSubprob P_subprob P_subprob2 P_warm P_sgpath3 SpecBlock M_block M_sgb M_sbpath SpecSbpath P_sbpath P_sbpath2.
Import ListNotations.
Local Open Scope R_scope.

Theorem lasso_end : forall P M chk max_tries fuel l0 ls, good_path P -> (forall j, (j < lp_size P)%nat -> 0 < nth j (lp_weights P) 0) -> sized M ->
  (forall set l, index_set (lp_size P) set -> 0 < l -> minimized M (length set) (objective (sub_loss P set l) (lasso_pen P set l))) -> Forall (fun l => 0 < l) ls -> (lp_size P < max_tries)%nat -> (max_tries + 4 <= fuel)%nat ->
  let '(s, g) := lasso_null M P in exists pts, strong_rules fuel P (path_solver M P (lasso_pen P)) chk max_tries (l0 :: ls) s g = Ok pts /\ map pt_lagrange pts = ls /\
    Forall (fun pt => pt_warned pt = false /\ length (pt_beta pt) = lp_size P /\ forall v, length v = lp_size P ->
      path_objective P (pt_lagrange pt) (pt_beta pt) <= path_objective P (pt_lagrange pt) v + kkt_tol * (lp_alpha P * pt_lagrange pt * sum_over (lp_size P) (fun j => nth j (lp_weights P) 0 * Rabs (nth j v 0)))) pts.
Proof.
  intros P M chk max_tries fuel l0 ls GP Wp S1 S2 Pl Hm Hf. destruct (lasso_exact P GP M S1 S2) as (RS & XS). destruct (lasso_null M P) as [s g] eqn:En.
  assert (Es : s = zeros (lp_size P)). { unfold lasso_null, null_fit in En. assert (Hu : unpenalized P = []). { destruct (unpenalized P) as [|j l] eqn:Eu; auto. exfalso. assert (Hj : In j (unpenalized P)) by (rewrite Eu; left; auto). apply unpenalized_in in Hj; [|auto]. destruct Hj as (Hj & E0). specialize (Wp j Hj). lra. } rewrite Hu in En. inversion En. reflexivity. }
  subst s. assert (B := bound_le max_tries). rewrite Nat.max_r in B by lia. destruct (path_ends P (path_solver M P (lasso_pen P)) chk max_tries fuel ls l0 (start_state P (zeros (lp_size P)) g) ltac:(lia)) as (pts & E & _). exists pts. split; [exact E|].
  destruct (path_spec P GP _ chk max_tries fuel ls l0 _ pts RS (start_ok P g) E) as (L & F1). split; auto. assert (F2 := path_exact P GP _ chk max_tries fuel RS XS ls l0 _ pts Pl (start_ok P g) (repeat_length _ _) E).
  rewrite Forall_forall in *. intros pt Hp. destruct (F1 pt Hp) as ((I & Eb & _) & A & _). destruct (F2 pt Hp) as (_ & W & So). assert (Nw : pt_warned pt = false) by (destruct (pt_warned pt); auto; specialize (W eq_refl); lia).
  split; auto. destruct So as (Ls & So). split; [rewrite Eb; apply embed_length; auto|]. intros v Lv. destruct (A Nw) as (Pa & _). rewrite Eb in *. apply nearly_optimal; auto; [|split; auto].
  apply Pl. rewrite <- L. apply in_map. auto.
Qed.

(** ** A solver for one_path: lam is read off the value at 1 *)
Definition one_min (y : R) : optimizer := fun _ n F _ => match n with 1%nat => match F [1] with Ok (Fin r) => [soft y (r - / 2 * ((1 - y) * (1 - y)))] | _ => [0] end | _ => zeros n end.
Lemma one_min_sized : forall y, sized (one_min y).
Proof. intros y k n F x0. unfold one_min. destruct n as [|[|n]]; [reflexivity| |apply repeat_length]. destruct (F [1]) as [[r|]|]; reflexivity. Qed.
Lemma one_min_right : forall y set l, 0 <= y -> index_set (lp_size (one_path y)) set -> 0 < l -> minimized (one_min y) (length set) (objective (sub_loss (one_path y) set l) (lasso_pen (one_path y) set l)).
Proof.
  intros y set l Hy I Hl. assert (V : forall c, length c = length set -> objective (sub_loss (one_path y) set l) (lasso_pen (one_path y) set l) c = Ok (Fin (path_objective (one_path y) l (embed (lp_size (one_path y)) set c)))) by (intros c Lc; apply lasso_restricted; auto; [apply one_good|lra]).
  eexists. split; [exact V|]. intros k x0. destruct (one_exact y Hy) as (XS & _). specialize (XS 0%nat [] set l I Hl). unfold solves, one_solver in XS. destruct (one_sets set I) as [-> | ->]; [exact XS|]. cbn [length map] in *. unfold one_min. rewrite V by auto.
  change (embed (lp_size (one_path y)) [0%nat] [1]) with [1]. rewrite one_objective, Rabs_R1. replace (/ 2 * ((1 - y) * (1 - y)) + l * 1 - / 2 * ((1 - y) * (1 - y))) with l by ring. exact XS.
Qed.
Definition one_warm (y : R) : warm_optimizer := fun d n F x0 => (one_min y 0%nat n F x0, 1).
Lemma one_linear : forall y, linear_design (one_path y).
Proof. intros y v L. reflexivity. Qed.
Lemma one_warm_right : forall y l, 0 <= y -> 0 < l -> warm_minimized (one_warm y) (lp_size (one_path y)) (objective (total_loss (one_path y) l) (warm_lasso_pen (one_path y) l)).
Proof.
  intros y l Hy Hl. assert (V := fun v => warm_lasso_value (one_path y) (one_good y) (one_linear y) l v). eexists. split; [exact V|]. intros d x0. cbn [one_warm fst]. change (lp_size (one_path y)) with 1%nat. unfold one_min. rewrite V by auto. rewrite one_objective, Rabs_R1. replace (/ 2 * ((1 - y) * (1 - y)) + l * 1 - / 2 * ((1 - y) * (1 - y))) with l by ring.
  split; auto. split; [eexists; reflexivity|]. intros c Lc. destruct c as [|c [|]]; try discriminate. rewrite !one_objective. cbn [ext_le]. apply soft_min; auto.
Qed.
(** the unpenalized problem in one feature: the answer y *)
Definition free_one (y : R) : lpath := gauss_path [[1]] 1 [y] [0] [0] 1.
Lemma free_one_good : forall y, good_path (free_one y).
Proof. intros y. apply gauss_good; auto; try lra; repeat constructor; lra. Qed.
Lemma free_one_objective : forall y l c, path_objective (free_one y) l [c] = / 2 * ((c - y) * (c - y)).
Proof. intros y l c. unfold path_objective, lasso_objective, smooth_part, free_one, gauss_path. cbn. unfold dot, vsum, sqn, dot, vsum. cbn. destruct (Req_EM_T 0 0); lra. Qed.
Definition free_min (y : R) : optimizer := fun _ n _ _ => repeat y n.
Lemma free_min_right : forall y, sized (free_min y) /\ unpenalized (free_one y) = [0%nat] /\ minimized (free_min y) (length (unpenalized (free_one y))) (objective (sub_loss (free_one y) (unpenalized (free_one y)) big) (lasso_pen (free_one y) (unpenalized (free_one y)) big)).
Proof.
  intros y. split; [intros k n F x0; apply repeat_length|]. assert (U : unpenalized (free_one y) = [0%nat]). { unfold unpenalized, free_one, gauss_path. cbn. destruct (is0 0) eqn:E; auto. apply is0_false in E. lra. }
  split; auto. rewrite U. assert (B := big_pos). eexists. split; [intros c Lc; apply (lasso_restricted (free_one y) (free_one_good y)); auto; [lra|split; [constructor; [intros []|constructor]|repeat constructor]]|].
  intros k x0. unfold free_min. cbn [length repeat]. split; auto. split; [eexists; reflexivity|]. intros c Lc. destruct c as [|c [|]]; try discriminate. change (embed (lp_size (free_one y)) [0%nat] [y]) with [y]. change (embed (lp_size (free_one y)) [0%nat] [c]) with [c]. cbn [ext_le]. rewrite !free_one_objective. assert (Sq := Rle_0_sqr (c - y)). unfold Rsqr in Sq. lra.
Qed.
(** ** X with an offset: warm_start adds it, strong_rules does not *)
Definition off_path : lpath := mk_lpath (fun v => vsub v [0]) (fun v => / 2 * sqn (vsub v [0])) (matrix [[1]] 1 (Some [2])) [1] [0] 1.
Lemma off_good : good_path off_path.
Proof.
  assert (B : built (matrix [[1]] 1 (Some [2]))) by (apply b_matrix; [repeat constructor|intros b Eb; inversion Eb; reflexivity]). assert (G := built_good _ B). destruct (one_good 0) as []. constructor; auto. split; [apply G|]. split; [apply G|]. auto.
Qed.
Theorem warm_offset : exists P v, good_path P /\ length v = lp_size P /\ path_objective P 1 v = 0 /\ objective (total_loss P 1) (warm_lasso_pen P 1) v = Ok (Fin 2).
Proof.
  exists off_path, [0]. split; [exact off_good|]. split; auto. split; [unfold path_objective, lasso_objective, smooth_part, off_path; cbn; unfold sqn, dot, vsum; cbn; rewrite Rabs_R0; destruct (Req_EM_T 1 0); lra|].
  unfold objective, warm_lasso_pen, w_seminorm. rewrite andb_false_l. rewrite l1_terms by (auto; repeat constructor; lra). cbn [rmap rbind ext_add]. do 2 f_equal. unfold total_loss, smooth_sum, full_loss, diag_loss, enet_params. cbn. unfold sqn, dot, vsum, acc_func. cbn. unfold dot, vsum. cbn. rewrite Rabs_R0. unfold scale. destruct (is0 1); cbn; destruct (Req_EM_T 1 1); field.
Qed.
(** ** one feature: groups, sparse groups, rows *)
Lemma one_min_any : forall y k F, 0 <= y -> 0 < k -> (forall c, F [c] = Ok (Fin (/ 2 * ((c - y) * (c - y)) + k * Rabs c))) -> minimized (one_min y) 1 F.
Proof.
  intros y k F Hy Hk V. exists (fun c => Fin (/ 2 * ((nth 0 c 0 - y) * (nth 0 c 0 - y)) + k * Rabs (nth 0 c 0))). split; [intros [|c [|]] Lc; try discriminate; apply V|]. intros n x0. unfold one_min. rewrite V, Rabs_R1. replace (/ 2 * ((1 - y) * (1 - y)) + k * 1 - / 2 * ((1 - y) * (1 - y))) with k by ring.
  split; auto. split; [eexists; reflexivity|]. intros [|c [|]] Lc; try discriminate. cbn [nth ext_le]. apply soft_min; auto.
Qed.
Lemma one_min_none : forall y F r, F [] = Ok (Fin r) -> minimized (one_min y) 0 F.
Proof. intros y F r V. exists (fun _ => Fin r). split; [intros [|] Lc; [exact V|discriminate]|]. intros n x0. split; auto. split; [eexists; reflexivity|]. intros c Lc. cbn. lra. Qed.
Definition tiny_group (y : R) : gpath := group_path (fun v => vsub v [y]) (fun v => / 2 * sqn (vsub v [y])) (matrix [[1]] 1 None) [1%Z] (lone 1) [0] 1.
Definition tiny_sparse (y : R) : gpath := sparse_group_path (fun v => vsub v [y]) (fun v => / 2 * sqn (vsub v [y])) (matrix [[1]] 1 None) [1%Z] [1] (lone 1) [0] 1 (1 / 2) 30.
Definition tiny_block (y : R) : gpath := sb_path argsort (fun v => vsub v [y]) (fun v => / 2 * sqn (vsub v [y])) (matrix [[1]] 1 None) 1 1 1 1 None [0] 1 30.
Lemma tiny_features : forall g set, features [g] set = [] \/ features [g] set = [0%nat].
Proof. intros g set. unfold features. cbn [length seq filter nth]. destruct (in_dec Z.eq_dec g set); auto. Qed.
Lemma tiny_smooth : forall y w l c, smooth_part (gauss_path [[1]] 1 [y] [w] [0] 1) l [c] = / 2 * ((c - y) * (c - y)).
Proof. intros y w l c. unfold smooth_part, gauss_path. cbn. unfold dot, vsum, sqn, dot, vsum. cbn. destruct (Req_EM_T w 0); lra. Qed.
Lemma tiny_good : forall y, good_path (gq_base (tiny_group y)) /\ good_path (gq_base (tiny_sparse y)) /\ good_path (gq_base (tiny_block y)).
Proof.
  intros y. split; [|split]; [change (gq_base (tiny_group y)) with (gauss_path [[1]] 1 [y] [1] [0] 1)|change (gq_base (tiny_sparse y)) with (gauss_path [[1]] 1 [y] [0] [0] 1)|change (gq_base (tiny_block y)) with (gauss_path [[1]] 1 [y] [1] [0] 1)];
  apply gauss_good; auto; try lra; repeat constructor; lra.
Qed.
Lemma tiny_group_right : forall y set l, 0 <= y -> 0 < l -> let B := gq_base (tiny_group y) in
  minimized (one_min y) (length (features [1%Z] set)) (objective (sub_loss B (features [1%Z] set) l) (M_subprob.group_pen B [1%Z] (filled (lone 1) [1%Z]) (features [1%Z] set) l)).
Proof.
  intros y set l Hy Hl B. assert (V := group_restricted_problem _ _ _ _ _ _ _ (proj1 (tiny_good y)) eq_refl l set). destruct (tiny_features 1%Z set) as [E|E]; rewrite E in *.
  - eapply one_min_none. apply V. reflexivity.
  - apply (one_min_any y l); auto. intros c. etransitivity; [apply V; reflexivity|]. do 2 f_equal. change (embed _ [0%nat] [c]) with [c]. unfold gpath_objective, group_objective, group_penalty. change (gq_base _) with (gauss_path [[1]] 1 [y] [1] [0] 1). rewrite tiny_smooth. change (distinct [1%Z]) with [1%Z]. cbn [map]. change (block [1%Z] 1 [c]) with [c]. unfold vsum. cbn [fold_right gauss_path lp_alpha]. rewrite P_sgl7.norm1. change (group_weight (lone 1) [1%Z] 1%Z) with 1. ring.
Qed.
Lemma tiny_sparse_right : forall y set l, 0 <= y -> 0 < l -> let B := gq_base (tiny_sparse y) in
  minimized (one_min y) (length (features [1%Z] set)) (objective (sub_loss B (features [1%Z] set) l) (sparse_pen B [1%Z] (sg_lasso [1] (1 / 2)) (sg_weights [1%Z] (lone 1) (1 / 2)) (features [1%Z] set) l)).
Proof.
  intros y set l Hy Hl B. assert (Na : nonneg (map (fun x => x * (1 / 2)) [1])) by (repeat constructor; lra). assert (V := sparse_restricted_problem _ _ _ _ _ _ _ _ _ _ (proj1 (proj2 (tiny_good y))) eq_refl eq_refl Na l set). destruct (tiny_features 1%Z set) as [E|E]; rewrite E in *.
  - eapply one_min_none. apply V. reflexivity.
  - apply (one_min_any y l); auto. intros c. etransitivity; [apply V; reflexivity|]. do 2 f_equal. change (embed _ [0%nat] [c]) with [c]. unfold sparse_objective, sparse_penalty. change (gq_base _) with (gauss_path [[1]] 1 [y] [0] [0] 1). rewrite tiny_smooth. change (distinct [1%Z]) with [1%Z]. cbn [map]. change (block [1%Z] 1 [c]) with [c]. change (block [1%Z] 1 [1 * (1 / 2)]) with [1 * (1 / 2)]. unfold vsum. cbn [fold_right gauss_path lp_alpha map vmul vzip]. rewrite P_sgl7.norm1. change (group_weight (lone 1) [1%Z] 1%Z) with 1. field.
Qed.
Lemma tiny_block_right : forall y set l, 0 <= y -> 0 < l -> let B := gq_base (tiny_block y) in
  minimized (one_min y) (length (features (row_labels 1 1) set)) (objective (sub_loss B (features (row_labels 1 1) set) l) (block_sub_pen B 1 1 1 (features (row_labels 1 1) set) l)).
Proof.
  intros y set l Hy Hl B. assert (V := fun b H => block_restricted_problem argsort (fun v => vsub v [y]) (fun v => / 2 * sqn (vsub v [y])) (matrix [[1]] 1 None) 1 1 1 1 None [0] 1 30 (proj2 (proj2 (tiny_good y))) Nat.lt_0_1 l set b (Rlt_le _ _ Hl) H). change (row_labels 1 1) with [0%Z] in *. destruct (tiny_features 0%Z set) as [E|E]; rewrite E in *.
  - eapply one_min_none. apply V. reflexivity.
  - apply (one_min_any y (2 * l)); auto; [lra|]. intros c. etransitivity; [apply V; reflexivity|]. do 2 f_equal. change (embed _ [0%nat] [c]) with [c]. unfold block_objective. change (gq_base _) with (gauss_path [[1]] 1 [y] [1] [0] 1). rewrite tiny_smooth, one_block. cbn [gauss_path lp_alpha]. ring.
Qed.
