(** Basil in cross-validation; fitting a path a second time. *)
From Coq Require Import Reals List Lra Lia Arith Bool ZArith Permutation.
From Verif Require Import M_affine SpecAffine Vec Spec SpecConvex M_quad M_buffer M_loss SpecLoss P_quad P_calc P_sep P_loss SpecSmooth SpecCv M_cv P_cv M_path SpecPath P_path P_path2 P_path3 P_path4 P_path6 M_semi M_subprob SpecSubprob P_subprob P_warm2
  M_crossval SpecCrossval P_crossval P_crossval2.
Import ListNotations.
Local Open Scope R_scope.

(** ** The array of basil has no entry 'beta' *)
Lemma jobs_entries : forall fit folds order g k r, In (k, r) (fst (run_jobs fit folds order g)) -> exists train g', r = fst (fit train g').
Proof.
  intros fit folds. induction order as [|j order IH]; intros g k r H; [contradiction|]. cbn [run_jobs] in H. destruct (fit (fst (nth j folds ([], []))) g) as [r1 g1] eqn:E1. destruct (run_jobs fit folds order g1) as [rs g2] eqn:E2. cbn [fst In] in H. destruct H as [H|H].
  - inversion H; subst. exists (fst (nth k folds ([], []))), g. rewrite E1. reflexivity.
  - apply (IH g1 k). rewrite E2. exact H.
Qed.
Theorem basil_cv : forall label shuffle cv order fuel M h l X w e alpha initial_data score ls, shuffles shuffle -> data_of (l_fam l) <> [] ->
  exists x, fst (cross_validate label shuffle cv order Basil fuel M h l X w e alpha initial_data score ls) = Err x.
Proof.
  intros label shuffle cv order fuel M h l X w e alpha initial_data score ls Sh Ne. unfold cross_validate. destruct (match initial_data with Some d => d | None => _ end) as [s0 g0]. destruct (cv_folds label shuffle cv (length (data_of (l_fam l)))) as [folds|x] eqn:Ef; [|eexists; reflexivity].
  assert (Pa := cv_partition _ _ _ _ _ Sh Ef). assert (Nf : folds <> []). { intros ->. destruct Pa as (_ & U). destruct (U 0%nat) as (k & (Hk & _) & _); [destruct (data_of (l_fam l)); [congruence|cbn; lia]|]. cbn in Hk. lia. }
  set (fit := fun train g => match fold_path h l train X w e alpha with Err x => (Err x, g) | Ok P => run_fitter Basil fuel M P ls s0 g end). fold fit. assert (J := jobs_entries fit folds order g0). destruct (run_jobs fit folds order g0) as [rs g]. cbn [fst] in *.
  destruct folds as [|f folds]; [congruence|]. cbn [length seq map all_ok]. assert (B : exists x, beta_of rs 0 = Err x).
  { unfold beta_of. destruct (find (fun p => Nat.eqb (fst p) 0) rs) as [[k r]|] eqn:E; [|eexists; reflexivity]. apply find_some in E as (I & _). destruct (J k r I) as (train & g' & ->). unfold fit, run_fitter.
    destruct (fold_path h l train X w e alpha) as [P|x]; [|eexists; reflexivity]. destruct (basil_grad fuel P (path_solver M P (lasso_pen P)) 50 5 ls s0 g' [] [] 0) as [[out|x] g1]; cbn; eexists; reflexivity. }
  destruct B as (x & ->). eexists. reflexivity.
Qed.
(** what basil returns is what it returned in M_path *)
Lemma basil_grad_same : forall fuel P S nvar step lseq sol grad done cand calls, fst (basil_grad fuel P S nvar step lseq sol grad done cand calls) = basil_loop fuel P S false nvar step lseq sol grad done cand calls.
Proof.
  induction fuel as [|fuel IH]; intros; [reflexivity|]. cbn [basil_grad basil_loop]. destruct (firstn step (skipn (basil_start lseq (map fst done)) lseq)); [reflexivity|]. destruct (basil_inner P S false nvar sol grad calls (r :: l) cand) as [[[out g] c'] c]. apply IH.
Qed.
(** ** Basil again *)
Lemma one_set : forall y g ls, 0 < minimum ls -> basil_set (one_path y) 50 [0] [g] ls [] = if Rlt_dec (1 + kkt_tol) (Rabs g / minimum ls) then [0%nat] else [].
Proof.
  intros y g ls Hm. unfold basil_set. change (lp_weights (one_path y)) with [1]. change (lp_alpha (one_path y)) with 1. rewrite Rmult_1_l. unfold check_KKT, inactive_ranks. cbn [snd length seq map nth].
  assert (Et : inactive_term [1] [g] [0] (minimum ls) 0 = Rabs g / minimum ls). { unfold inactive_term. cbn [nth]. replace (is0 0) with true by (symmetry; apply is0_true; auto). replace (gtb 1 0) with true by (symmetry; apply gtb_true; lra). cbn [andb]. rewrite Rmult_1_r. unfold Rdiv. rewrite Rabs_mult, (Rabs_right (/ minimum ls)); auto. apply Rle_ge, Rlt_le, Rinv_0_lt_compat. auto. }
  rewrite Et. set (t := Rabs g / minimum ls). destruct (Rle_dec t (1 + kkt_tol)) as [A|A]; destruct (Rlt_dec (1 + kkt_tol) t) as [B|B]; try lra.
  - cbn [filter length]. destruct (Rle_dec 0 (-1)); [lra|]. cbn. unfold unpenalized. cbn. replace (is0 1) with false by (symmetry; apply is0_false; lra). destruct (Rle_dec 0 (-1)); [lra|]. reflexivity.
  - assert (Er : INR 1 - rankdata [t] 0 = 0). { unfold rankdata. cbn [nth filter]. replace (gtb t t) with false by (symmetry; apply gtb_false; lra). replace (is0 (t - t)) with true by (symmetry; apply is0_true; lra). cbn. lra. }
    rewrite Er. cbn [filter length]. destruct (Rle_dec 0 0); [|lra]. cbn. destruct (Rle_dec 0 0); [|lra]. replace (gtb 1 0) with true by (symmetry; apply gtb_true; lra). reflexivity.
Qed.
Lemma one_solves : forall y k v l, 0 < l -> path_solver (one_min y) (one_path y) (lasso_pen (one_path y)) k v [0%nat] l = [soft y l].
Proof.
  intros y k v l Hl. unfold path_solver, solve_subproblem. cbn [an_soln length]. assert (I : index_set 1 [0%nat]) by (split; [constructor; [intros []|constructor]|repeat constructor]).
  assert (V := lasso_restricted (one_path y) (one_good y) l [0%nat] [1] ltac:(lra) I eq_refl). unfold one_min. rewrite V. change (embed (lp_size (one_path y)) [0%nat] [1]) with [1]. rewrite one_objective, Rabs_R1. do 2 f_equal. ring.
Qed.
Lemma one_solves_none : forall y k v l, path_solver (one_min y) (one_path y) (lasso_pen (one_path y)) k v [] l = [].
Proof. reflexivity. Qed.
Definition near : R := 201 / 200.
Lemma one_null : lasso_null (one_min near) (one_path near) = ([0], [- near]).
Proof.
  unfold lasso_null, null_fit. assert (U : unpenalized (one_path near) = []). { unfold unpenalized. cbn. replace (is0 1) with false by (symmetry; apply is0_false; lra). reflexivity. } rewrite U.
  cbn [zeros repeat lp_size]. change (zeros (lp_size (one_path near))) with [0]. f_equal. change (zeros (t_out (lp_X (one_path near)))) with [0]. assert (E := one_gradient near 1 0). unfold path_gradient, one_path, gauss_path in *. cbn in *. unfold dot, vsum, enet_entry in *. cbn in *. destruct (is0 1); f_equal; lra.
Qed.
Lemma one_step : forall y sub l, path_gradient (one_path y) [sub] (mat_tvec (t_out (lp_X (one_path y))) (subsample_columns (lp_X (one_path y)) [0%nat]) [sub]) l = [sub - y].
Proof. intros y sub l. unfold path_gradient, one_path, gauss_path. cbn. unfold dot, vsum, enet_entry. cbn. unfold vadd, mat_tvec, vscal. cbn. destruct (is0 1); f_equal; lra. Qed.
Lemma one_step_none : forall y l, path_gradient (one_path y) [0] (mat_tvec (t_out (lp_X (one_path y))) (subsample_columns (lp_X (one_path y)) []) []) l = [- y].
Proof. intros y l. unfold path_gradient, one_path, gauss_path. cbn. unfold dot, vsum, enet_entry. cbn. destruct (is0 1); f_equal; lra. Qed.
Notation solve_one y := (path_solver (one_min y) (one_path y) (lasso_pen (one_path y))).
Lemma one_values : forall y s g c l ls, 0 < l -> soft y l <> 0 -> basil_values (one_path y) (solve_one y) false [0%nat] [s] g c (l :: ls) =
  let '(out, g', f, c') := basil_values (one_path y) (solve_one y) false [0%nat] [soft y l] [soft y l - y] (S c) ls in ((l, [soft y l]) :: out, g', f, c').
Proof.
  intros y s g c l ls Hl Hs. cbn [basil_values]. rewrite one_solves by auto. change (M_affine.scatter [0%nat] [soft y l] [s]) with [soft y l]. rewrite one_step. change (lp_weights (one_path y)) with [1]. rewrite failing1, term_active by auto. reflexivity.
Qed.
Lemma one_values_pass : forall y g c l ls, 0 < l -> 0 <= y -> y <= (1 + kkt_tol) * l -> basil_values (one_path y) (solve_one y) false [] [0] g c (l :: ls) =
  let '(out, g', f, c') := basil_values (one_path y) (solve_one y) false [] [0] [- y] (S c) ls in ((l, [0]) :: out, g', f, c').
Proof.
  intros y g c l ls Hl Hy Hk. cbn [basil_values]. rewrite one_solves_none. change (M_affine.scatter [] [] [0]) with [0]. rewrite one_step_none. change (lp_weights (one_path y)) with [1]. change (lp_alpha (one_path y)) with 1. rewrite failing1.
  replace (gtb (inactive_term [1] [- y] [0] (1 * l) 0) (1 + kkt_tol)) with false; [reflexivity|]. symmetry. apply gtb_false. unfold inactive_term. cbn [nth]. replace (is0 0) with true by (symmetry; apply is0_true; auto). replace (gtb 1 0) with true by (symmetry; apply gtb_true; lra). cbn [andb].
  replace (- y / (1 * l * 1)) with (- (y / l)) by (field; lra). rewrite Rabs_Ropp, Rabs_right. { apply (Rmult_le_reg_r l); auto. unfold Rdiv. rewrite Rmult_assoc, Rinv_l by lra. lra. } apply Rle_ge. apply Rmult_le_pos; auto. apply Rlt_le, Rinv_0_lt_compat; auto.
Qed.
Lemma one_values_stop : forall y g c l ls, 0 < l -> 2 * l <= y -> basil_values (one_path y) (solve_one y) false [] [0] g c (l :: ls) = ([], [- y], Some [true], S c).
Proof.
  intros y g c l ls Hl Hy. cbn [basil_values]. rewrite one_solves_none. change (M_affine.scatter [] [] [0]) with [0]. rewrite one_step_none. change (lp_weights (one_path y)) with [1]. change (lp_alpha (one_path y)) with 1. rewrite failing1, Rmult_1_l.
  rewrite term_large by (try lra; rewrite Rabs_Ropp, Rabs_right; lra). reflexivity.
Qed.
Lemma union_one : forall a b, In 0%nat a \/ In 0%nat b -> union 1 a b = [0%nat].
Proof. intros a b H. destruct (one_sets _ (union_index 1 a b)) as [E|E]; auto. exfalso. assert (I : In 0%nat (union 1 a b)) by (apply union_In; split; auto). rewrite E in I. contradiction. Qed.
Lemma one_set_kept : forall y g ls, basil_set (one_path y) 50 [0] [g] ls [0%nat] = [0%nat].
Proof. intros. unfold basil_set. apply union_one. right. left. auto. Qed.
Theorem basil_again : forall fuel, (3 <= fuel)%nat -> lasso_null (one_min near) (one_path near) = ([0], [- near]) /\
  run_fitter Basil fuel (one_min near) (one_path near) [1; / 2] [0] [- near] = (Ok (Solutions [[1 / 200]; [101 / 200]]), [- / 2]) /\
  run_fitter Basil fuel (one_min near) (one_path near) [1; / 2] [0] [- / 2] = (Ok (Solutions [[0]; [101 / 200]]), [- / 2]).
Proof.
  intros fuel Hf. split; [apply one_null|].
  assert (S1 : soft near 1 = 1 / 200) by (unfold soft, near; destruct (Rle_dec _ _); lra). assert (S2 : soft near (/ 2) = 101 / 200) by (unfold soft, near; destruct (Rle_dec _ _); lra).
  assert (Mi : minimum [1; / 2] = / 2) by (unfold minimum, Rmin; destruct (Rle_dec _ _); lra). assert (Mh : minimum [/ 2] = / 2) by reflexivity.
  assert (St : basil_start [1; / 2] [1; / 2] = 2%nat). { unfold basil_start. rewrite Mi. cbn [filter]. destruct (Rle_dec (/ 2) 1); [|lra]. destruct (Rle_dec (/ 2) (/ 2)); [|lra]. reflexivity. }
  assert (So : basil_start [1; / 2] [1] = 1%nat). { unfold basil_start. cbn [minimum filter]. destruct (Rle_dec 1 1); [|lra]. destruct (Rle_dec 1 (/ 2)); [lra|]. reflexivity. }
  destruct fuel as [|[|[|fuel]]]; try lia. split.
  - unfold run_fitter. cbn [basil_grad map fst basil_start skipn firstn]. unfold basil_inner. rewrite one_set by (rewrite Mi; lra). rewrite Mi. destruct (Rlt_dec (1 + kkt_tol) (Rabs (- near) / / 2)) as [_|N].
    2: { exfalso. apply N. rewrite Rabs_Ropp, Rabs_right by (unfold near; lra). unfold near, kkt_tol. lra. }
    rewrite one_values by (rewrite ?S1; lra). rewrite one_values by (rewrite ?S2; lra). cbn [basil_values app map fst]. rewrite St. cbn [skipn firstn rmap rbind]. rewrite S1, S2. cbn [map snd]. unfold rmap. cbn [rbind map snd]. f_equal. f_equal. unfold near. lra.
  - unfold run_fitter. cbn [basil_grad map fst basil_start skipn firstn]. unfold basil_inner at 1. rewrite one_set by (rewrite Mi; lra). rewrite Mi. destruct (Rlt_dec (1 + kkt_tol) (Rabs (- / 2) / / 2)) as [N|_].
    { exfalso. rewrite Rabs_Ropp, Rabs_right in N by lra. unfold kkt_tol in N. lra. }
    rewrite one_values_pass by (unfold near, kkt_tol; lra). rewrite one_values_stop by (unfold near; lra). cbn [app map fst]. rewrite So. cbn [skipn firstn].
    match goal with |- context [basil_inner _ _ _ _ _ _ _ _ ?c] => assert (Ec : c = [0%nat]) end. { apply union_one. right. cbn. auto. }
    rewrite Ec. unfold basil_inner. rewrite one_set_kept. rewrite one_values by (rewrite ?S2; lra). cbn [basil_values app map fst]. rewrite St. cbn [skipn firstn]. rewrite S2. unfold rmap. cbn [rbind map snd]. f_equal. f_equal. unfold near. lra.
Qed.
