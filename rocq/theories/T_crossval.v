(** C102: cross-validation of lasso paths from end to end. *)
From Coq Require Import Reals List Lra Lia Arith Bool ZArith Permutation.
From Verif Require Import M_affine SpecAffine P_affine Vec Spec SpecConvex M_quad M_buffer M_loss SpecLoss P_quad P_calc P_sep P_loss SpecSmooth SpecCv M_cv P_cv M_path SpecPath P_path P_path6 M_semi M_subprob SpecSubprob P_subprob P_warm2
  M_crossval SpecCrossval P_crossval P_crossval2 P_crossval3 P_crossval4 P_loss4.
Import ListNotations.
Local Open Scope R_scope.

(** Every feature penalized, strong_rules: whatever the folds, their shuffle and the order in which the jobs run, cross_validate returns the means and the
    standard deviations of the scores at the held-out cases of coefficients which, fold by fold and value by value, nearly minimize the objective of the
    training cases; the gradient given to the jobs is left as it was. *)
Theorem C102_cv_partial : forall label shuffle cv order fuel M h l X w e alpha score l0 ls p folds, made h l -> copies_weights (l_fam l) = true \/ l_cw l = None -> tame (l_fam l) -> good_design X p (l_shape l) ->
  length w = p -> (forall j, (j < p)%nat -> 0 < nth j w 0) -> length e = p -> nonneg e -> 0 < alpha <= 1 -> sized M -> Forall (fun a => 0 < a) ls -> (24 <= fuel)%nat ->
  shuffles shuffle -> cv_folds label shuffle cv (l_shape l) = Ok folds -> (2 <= length folds)%nat -> Permutation order (seq 0 (length folds)) ->
  (forall f P, In f folds -> fold_path h l (fst f) X w e alpha = Ok P -> forall set lam, index_set p set -> 0 < lam -> minimized M (length set) (objective (sub_loss P set lam) (lasso_pen P set lam))) ->
  exists fits means sds, cross_validate label shuffle cv order StrongRules fuel M h l X w e alpha None score (l0 :: ls) = (Ok (means, sds), snd (lasso_null M (path_of h l X w e alpha))) /\
    cv_summary score X (data_of (l_fam l)) folds (S (length ls)) fits means sds /\ forall f, In f folds -> exists bs ws, fits f = zeros p :: bs /\ fold_ok h l (fst f) X w e alpha p ls bs ws.
Proof. exact cv_end. Qed.
Print Assumptions C102_cv_partial.
(** The training path is the same for any other data and weights that agree with it at the training cases. *)
Theorem C102_blind : forall h l h' l' train X w e alpha, made h l -> made h' l' -> copies_weights (l_fam l) = true \/ l_cw l = None -> copies_weights (l_fam l') = true \/ l_cw l' = None ->
  l_shape l' = l_shape l -> l_coef l' = l_coef l -> l_offset l' = l_offset l -> length train = l_shape l -> (0 < size train)%nat ->
  same_training train (l_shape l) (l_fam l) (l_fam l') -> agree train (l_shape l) (own_weights h l) (own_weights h' l') -> fold_path h l train X w e alpha = fold_path h' l' train X w e alpha.
Proof. exact blind. Qed.
Print Assumptions C102_blind.
(** With an intercept that is not penalized the first coefficients are those of the whole sample in every fold, held-out cases included: leave-one-out of
    two responses a, b scores (a - b)^2 / 4 at the first value, while the minimizers of the training objectives score (a - b)^2. *)
Theorem C102_leak_refuted : forall h l a b M fuel l0, two_cases h l a b -> sized M -> (0 < fuel)%nat ->
  (let P := path_of h l intercept [0] [0] 1 in minimized M (length (unpenalized P)) (objective (sub_loss P (unpenalized P) big) (lasso_pen P (unpenalized P) big))) ->
  cv_folds exact_label (fun z => z) (Some 2%Z) (l_shape l) = Ok two_folds /\
  fst (cross_validate exact_label (fun z => z) (Some 2%Z) [0%nat; 1%nat] StrongRules fuel M h l intercept [0] [0] 1 None squared_score [l0]) = Ok ([(a - b) * (a - b) / 4], [0]) /\
  forall f c, In f two_folds -> (forall v, length v = 1%nat -> train_objective h l (fst f) intercept [0] [0] 1 l0 [c] <= train_objective h l (fst f) intercept [0] [0] 1 l0 v) ->
    held_out squared_score intercept [a; b] f [c] = (a - b) * (a - b).
Proof. exact leak. Qed.
Print Assumptions C102_leak_refuted.
(** With path_fitter=basil cross_validate raises for every sample with a case. *)
Theorem C102_basil_refuted : forall label shuffle cv order fuel M h l X w e alpha initial_data score ls, shuffles shuffle -> data_of (l_fam l) <> [] ->
  exists x, fst (cross_validate label shuffle cv order Basil fuel M h l X w e alpha initial_data score ls) = Err x.
Proof. exact basil_cv. Qed.
Print Assumptions C102_basil_refuted.
(** basil writes its gradients into the array it is given: the same call a second time, with the same pair, gives other coefficients. *)
Theorem C102_again_refuted : forall fuel, (3 <= fuel)%nat -> good_path (one_path near) /\ lasso_null (one_min near) (one_path near) = ([0], [- near]) /\
  run_fitter Basil fuel (one_min near) (one_path near) [1; / 2] [0] [- near] = (Ok (Solutions [[1 / 200]; [101 / 200]]), [- / 2]) /\
  run_fitter Basil fuel (one_min near) (one_path near) [1; / 2] [0] [- / 2] = (Ok (Solutions [[0]; [101 / 200]]), [- / 2]).
Proof. intros fuel H. split; [apply one_good|exact (basil_again fuel H)]. Qed.
Print Assumptions C102_again_refuted.

(** Two equal responses 10, one feature: each fold has the objective (c - 10)^2 + lam |c|. *)
Definition pair_loss (a b : R) : loss := mk_loss (Gaussian [a; b]) 2 1 None (mk_iq 0 (FScal 0) (FScal 0) 0) None.
Definition pair_min : optimizer := fun _ n F _ => match n with 1%nat => match F [1] with Ok (Fin r) => [soft 10 ((r - 81) / 2)] | _ => [0] end | _ => zeros n end.
Lemma pair_made : forall a b, made [] (pair_loss a b).
Proof. intros a b. exists None, None. split; [unfold new_loss; cbn; destruct (Rlt_dec 1 0); [lra|reflexivity]|]. split; [discriminate|]. split; [reflexivity|exact I]. Qed.
Lemma pair_sized : sized pair_min.
Proof. intros k n F x0. unfold pair_min. destruct n as [|[|n]]; [reflexivity| |apply repeat_length]. destruct (F [1]) as [[r|]|]; reflexivity. Qed.
Lemma pair_right : forall f P, In f two_folds -> fold_path [] (pair_loss 10 10) (fst f) intercept [1] [0] 1 = Ok P ->
  forall set lam, index_set 1 set -> 0 < lam -> minimized pair_min (length set) (objective (sub_loss P set lam) (lasso_pen P set lam)).
Proof.
  intros f P If EP set lam Is Hl. assert (Lf : length (fst f) = 2%nat /\ (0 < size (fst f))%nat) by (destruct If as [<-|[<-|[]]]; split; cbn; auto; lia). destruct Lf as (Lf & Sf).
  assert (V : forall v, length v = 1%nat -> path_objective P lam v = (nth 0 v 0 - 10) * (nth 0 v 0 - 10) + lam * Rabs (nth 0 v 0)).
  { intros v Lv. rewrite (train_value [] (pair_loss 10 10) (fst f) intercept [1] [0] 1 lam v 1 (pair_made 10 10) (or_intror eq_refl) Lf Sf) with (P := P); auto; [|split; cbn; auto|apply intercept_design|intros [|j] Hj; cbn; [lra|lia]].
    destruct v as [|c [|]]; try discriminate. unfold train_objective, sum_over. destruct If as [<-|[<-|[]]]; cbn; unfold dot, vsum; cbn; lra. }
  assert (GP : good_path P). { rewrite fold_path_value in EP by (auto using pair_made). injection EP as <-. apply (only_good _ _ _ _ _ _ _ _ _ 1); [reflexivity|exact I| |apply (scale_nonneg 1 2 (size (fst f))); [lra|auto]|apply restrict_nonneg; repeat constructor; lra|split; cbn; auto|apply intercept_design|reflexivity|repeat constructor; lra|reflexivity|repeat constructor; lra|lra].
    rewrite restrict_length. reflexivity. }
  assert (Sz : lp_size P = 1%nat) by (rewrite fold_path_value in EP by (auto using pair_made); injection EP as <-; reflexivity).
  assert (W : forall c, length c = length set -> objective (sub_loss P set lam) (lasso_pen P set lam) c = Ok (Fin (path_objective P lam (embed (lp_size P) set c)))) by (intros c Lc; apply lasso_restricted; auto; [lra|rewrite Sz; auto]).
  eexists. split; [exact W|]. intros k x0. rewrite Sz in *. destruct (one_sets set Is) as [-> | ->]; cbn [length] in *.
  - split; auto. split; [eexists; reflexivity|]. intros c Lc. destruct c; [|discriminate]. cbn. lra.
  - unfold pair_min. rewrite W by auto. change (embed 1 [0%nat] [1]) with [1]. rewrite V by auto. cbn [nth]. rewrite Rabs_R1. replace (((1 - 10) * (1 - 10) + lam * 1 - 81) / 2) with (lam / 2) by field.
    split; auto. split; [eexists; reflexivity|]. intros c Lc. destruct c as [|c [|]]; try discriminate. change (embed 1 [0%nat] [soft 10 (lam / 2)]) with [soft 10 (lam / 2)]. change (embed 1 [0%nat] [c]) with [c]. cbn [ext_le]. rewrite !V by auto. cbn [nth].
    assert (S := soft_min 10 (lam / 2) c ltac:(lra) ltac:(lra)). lra.
Qed.
Example C102_case : made [] (pair_loss 10 10) /\ l_cw (pair_loss 10 10) = None /\ tame (l_fam (pair_loss 10 10)) /\ good_design intercept 1 2 /\ sized pair_min /\ cv_folds exact_label (fun z => z) (Some 2%Z) 2 = Ok two_folds /\
  (forall f P, In f two_folds -> fold_path [] (pair_loss 10 10) (fst f) intercept [1] [0] 1 = Ok P -> forall set lam, index_set 1 set -> 0 < lam -> minimized pair_min (length set) (objective (sub_loss P set lam) (lasso_pen P set lam))) /\
  Permutation [1%nat; 0%nat] (seq 0 (length two_folds)).
Proof. split; [apply pair_made|]. split; auto. split; [split; cbn; auto|]. split; [apply intercept_design|]. split; [apply pair_sized|]. split; [reflexivity|]. split; [exact pair_right|]. apply perm_swap. Qed.
Example C102_blind_case : same_training [true; false] 2 (Gaussian [1; 2]) (Gaussian [1; 7]) /\ agree [true; false] 2 (ones 2) (ones 2).
Proof. split; (split; [reflexivity|]; split; [reflexivity|]; intros [|[|i]] Hi Ht; cbn in *; auto; try discriminate; lia). Qed.
Lemma free_pair_right : forall a b, let P := path_of [] (pair_loss a b) intercept [0] [0] 1 in
  minimized (free_min ((a + b) / 2)) (length (unpenalized P)) (objective (sub_loss P (unpenalized P) big) (lasso_pen P (unpenalized P) big)).
Proof.
  intros a b P. assert (EP : P = mk_lpath (only 2 (loss_grad (Gaussian [a; b]) 1 None (ones 2)) []) (only 2 (loss_func (Gaussian [a; b]) 1 None (ones 2)) 0) intercept [0] [0] 1) by (apply (whole_path_value [] (pair_loss a b)); apply pair_made).
  assert (GP : good_path P). { rewrite EP. apply (only_good _ _ _ _ _ _ _ _ _ 1); [reflexivity|exact I|reflexivity|lra|repeat constructor; lra|split; cbn; auto|apply intercept_design|reflexivity|repeat constructor; lra|reflexivity|repeat constructor; lra|lra]. }
  assert (U : unpenalized P = [0%nat]). { unfold unpenalized, P. cbn. destruct (is0 0) eqn:E; auto. apply is0_false in E. lra. }
  rewrite U. assert (B := big_pos). eexists. split; [intros c Lc; apply (lasso_restricted P GP); auto; [lra|split; [constructor; [intros []|constructor]|repeat constructor]]|].
  intros k x0. unfold free_min. cbn [length repeat]. split; auto. split; [eexists; reflexivity|]. intros c Lc. destruct c as [|c [|]]; try discriminate. change (embed (lp_size P) [0%nat] [(a + b) / 2]) with [(a + b) / 2]. change (embed (lp_size P) [0%nat] [c]) with [c]. cbn [ext_le].
  assert (V : forall x, path_objective P big [x] = / 2 * ((x - a) * (x - a) + (x - b) * (x - b))).
  { intros x. rewrite EP. unfold path_objective, lasso_objective, smooth_part, only. cbn. unfold sum_over, dot, vsum, scale. cbn. destruct (Req_EM_T 1 1); [|lra]. destruct (Req_EM_T 0 0); [|lra]. field. }
  rewrite !V. assert (Sq := Rle_0_sqr (c - (a + b) / 2)). unfold Rsqr in Sq. lra.
Qed.
Example C102_leak_case : two_cases [] (pair_loss 0 2) 0 2 /\ sized (free_min 1).
Proof. split; [split; [apply pair_made|]; cbn; repeat split; lra|intros k n F x0; apply repeat_length]. Qed.
