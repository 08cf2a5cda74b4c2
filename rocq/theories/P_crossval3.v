(** Cross-validation: what a fold sees of the held-out cases; basil. *)
From Coq Require Import Reals List Lra Lia Arith Bool ZArith Permutation FunctionalExtensionality.
From Verif Require Import M_affine SpecAffine P_affine Vec Spec SpecConvex M_quad M_buffer M_loss SpecLoss P_quad P_calc P_sep P_loss P_loss2 P_loss4 SpecSmooth SpecCv M_cv P_cv M_path SpecPath P_path P_path2 P_path3 P_path4 P_path6 M_semi M_subprob SpecSubprob P_subprob
  M_crossval SpecCrossval P_crossval P_crossval2.
Import ListNotations.
Local Open Scope R_scope.

(** ** Given what to start from, a fold depends on its training cases only *)
Lemma restrict_nth : forall idx w i, (i < length w)%nat -> nth i (restrict idx w) 0 = if in_dec Nat.eq_dec i idx then nth i w 0 else 0.
Proof. intros idx w i H. unfold restrict. apply (nth_map_seq _ (fun i => if in_dec Nat.eq_dec i idx then nth i w 0 else 0)); auto. Qed.
Lemma predictor_alike : forall train n k k' off x, same_training train n k k' -> predictor k off x = predictor k' off x.
Proof. intros train n k k' off x H. destruct k, k'; cbn in *; try contradiction; reflexivity. Qed.
Theorem blind : forall h l h' l' train X w e alpha, made h l -> made h' l' -> copies_weights (l_fam l) = true \/ l_cw l = None -> copies_weights (l_fam l') = true \/ l_cw l' = None ->
  l_shape l' = l_shape l -> l_coef l' = l_coef l -> l_offset l' = l_offset l -> length train = l_shape l -> (0 < size train)%nat ->
  same_training train (l_shape l) (l_fam l) (l_fam l') -> agree train (l_shape l) (own_weights h l) (own_weights h' l') -> fold_path h l train X w e alpha = fold_path h' l' train X w e alpha.
Proof.
  intros h l h' l' train X w e alpha Hm Hm' Hc Hc' Es Ec Eo Lt Hs Sk (La & Lb & Ag). destruct (made_fits h l Hm) as (F & _). destruct (made_fits h' l' Hm') as (F' & _). rewrite Es in F'.
  destruct (fold_eval h l train Hm Hc Lt Hs) as (_ & _ & _ & _ & Of & Lr & _). destruct (fold_eval h' l' train Hm' Hc' ltac:(lia) Hs) as (_ & _ & _ & _ & _ & Lr' & _). rewrite Es in Lr'.
  rewrite !fold_path_value by (auto; lia). rewrite Es, Ec, Eo. set (n := l_shape l) in *. set (c := l_coef l * _). f_equal.
  assert (Hw : forall i, (i < n)%nat -> nth i train false = true -> nth i (restrict (picked train) (own_weights h l)) 0 = nth i (own_weights h l) 0 /\ nth i (restrict (picked train) (own_weights h' l')) 0 = nth i (own_weights h l) 0).
  { intros i Hi Ht. rewrite !restrict_nth by lia. destruct (in_dec Nat.eq_dec i (picked train)) as [I|I]; [rewrite <- Ag by auto; auto|]. exfalso. apply I, picked_in. split; auto. lia. }
  assert (H0 : forall i, (i < n)%nat -> nth i train false = false -> nth i (restrict (picked train) (own_weights h l)) 0 = 0 /\ nth i (restrict (picked train) (own_weights h' l')) 0 = 0).
  { intros i Hi Ht. rewrite !restrict_nth by lia. destruct (in_dec Nat.eq_dec i (picked train)) as [I|I]; auto. apply picked_in in I. destruct I. congruence. }
  assert (Hk : forall i a, (i < n)%nat -> nth i train false = true -> val_case (l_fam l) i a = val_case (l_fam l') i a /\ grad_case (l_fam l) i a = grad_case (l_fam l') i a).
  { intros i a Hi Ht. revert Sk. clear - Hi Ht. destruct (l_fam l), (l_fam l'); cbn; try contradiction; unfold agree; intros; repeat match goal with H : _ /\ _ |- _ => destruct H end; subst;
      repeat match goal with H : forall i, (i < n)%nat -> _ -> _ = _ |- _ => specialize (H i Hi Ht); try rewrite H end; auto. }
  f_equal; apply functional_extensionality; intros z; unfold only; destruct (Nat.eqb_spec (length z) n) as [Lz|]; auto.
  - destruct (loss_grad_cases (l_fam l) n c (l_offset l) (restrict (picked train) (own_weights h l)) z F Of Lr Lz) as (L1 & G1). destruct (loss_grad_cases (l_fam l') n c (l_offset l) (restrict (picked train) (own_weights h' l')) z F' Of Lr' Lz) as (L2 & G2).
    apply (nth_ext _ _ 0 0); [congruence|]. intros i Hi. rewrite L1 in Hi. rewrite G1, G2 by auto. f_equal. rewrite (predictor_alike train n _ _ _ z Sk). destruct (nth i train false) eqn:Et; [|destruct (H0 i Hi Et) as (-> & ->); ring]. destruct (Hw i Hi Et) as (-> & ->). f_equal. apply Hk; auto.
  - rewrite !(loss_func_cases _ n) by auto. f_equal. apply sum_over_ext. intros i Hi. rewrite (predictor_alike train n _ _ _ z Sk). destruct (nth i train false) eqn:Et; [|destruct (H0 i Hi Et) as (-> & ->); ring]. destruct (Hw i Hi Et) as (-> & ->). f_equal. apply Hk; auto.
Qed.
(** ** Started from the null solution of the whole sample, it does not *)
Lemma whole_path_value : forall h l X w e alpha, made h l ->
  path_of h l X w e alpha = mk_lpath (only (l_shape l) (loss_grad (l_fam l) (l_coef l) (l_offset l) (own_weights h l)) []) (only (l_shape l) (loss_func (l_fam l) (l_coef l) (l_offset l) (own_weights h l)) 0) X w e alpha.
Proof.
  intros h l X w e alpha Hm. unfold path_of. assert (V : forall x m, length x = l_shape l -> snd (loss_eval h l None x m) = smooth_value (l_fam l) (l_coef l) (l_offset l) (own_weights h l) x m).
  { intros x m Lx. unfold loss_eval. destruct (weigh h l None (length x)) as [h2 c] eqn:Ec. destruct (weigh_own _ _ _ _ _ Ec) as (V & _ & _).
    { intros w' Hw'. destruct Hm as (off & q & _ & B & _). apply B; auto. }
    { intros w' Hw'. rewrite Lx. apply (made_weights h l w' Hm Hw'). }
    cbn [snd]. unfold own_weights. destruct (l_cw l) as [r|]; rewrite V; auto. rewrite Lx. reflexivity. }
  f_equal; apply functional_extensionality; intros z; [unfold grad_at|unfold func_at]; unfold only; destruct (Nat.eqb_spec (length z) (l_shape l)) as [Lz|Lz]; auto; rewrite V by auto; reflexivity.
Qed.
Lemma intercept_design : good_design intercept 1 2.
Proof. assert (B : built intercept) by (apply b_matrix; [repeat constructor|discriminate]). assert (G := built_good _ B). split; [apply G|]. split; [apply G|]. auto. Qed.
Lemma two_fold_list : cv_folds exact_label (fun z => z) (Some 2%Z) 2 = Ok two_folds.
Proof. reflexivity. Qed.
Lemma null_two : forall h l a b M, two_cases h l a b -> sized M -> (let P := path_of h l intercept [0] [0] 1 in minimized M (length (unpenalized P)) (objective (sub_loss P (unpenalized P) big) (lasso_pen P (unpenalized P) big))) ->
  fst (lasso_null M (path_of h l intercept [0] [0] 1)) = [(a + b) / 2].
Proof.
  intros h l a b M (Hm & Ek & Es & Hc & Eo & Ew) SM HM. cbv zeta in HM. assert (EP := whole_path_value h l intercept [0] [0] 1 Hm). destruct (made_fits h l Hm) as (F & _).
  assert (GP : good_path (path_of h l intercept [0] [0] 1)). { rewrite EP. apply (only_good _ _ _ _ _ _ _ _ _ 1); auto; try (repeat constructor; lra); try lra; [rewrite Eo; cbn; auto|unfold own_weights; rewrite Ew; apply repeat_length|apply own_nonneg; auto|rewrite Ek; split; cbn; auto|rewrite Es; apply intercept_design]. }
  assert (N := lasso_null_right _ GP M SM HM). destruct (lasso_null M (path_of h l intercept [0] [0] 1)) as [s g]. destruct N as ((Ls & _ & N) & _). rewrite EP in *. cbn [fst]. unfold lp_size in Ls. cbn in Ls. destruct s as [|s [|]]; try discriminate. clear Ls.
  specialize (N 0%nat eq_refl). rewrite Ek, Es, Eo in N. unfold own_weights in N. rewrite Ew, Es in N. unfold path_gradient in N. cbn in N. unfold only in N. cbn in N. unfold vscale, enet_entry, dot, vsum, is0 in N. cbn in N.
  f_equal. destruct (Req_EM_T 0 0); [|lra]. cbn in N. destruct (Req_EM_T (l_coef l) 1); cbn in N; [lra|]. nra.
Qed.
Lemma sq_small : forall k c b, 0 < k -> k * ((c - b) * (c - b)) <= 0 -> c = b.
Proof. intros k c b Hk H. destruct (Req_dec c b) as [|N]; auto. assert (0 < (c - b) * (c - b)) by (apply Rsqr_pos_lt; lra). nra. Qed.
Theorem leak : forall h l a b M fuel l0, two_cases h l a b -> sized M -> (0 < fuel)%nat ->
  (let P := path_of h l intercept [0] [0] 1 in minimized M (length (unpenalized P)) (objective (sub_loss P (unpenalized P) big) (lasso_pen P (unpenalized P) big))) ->
  cv_folds exact_label (fun z => z) (Some 2%Z) (l_shape l) = Ok two_folds /\
  fst (cross_validate exact_label (fun z => z) (Some 2%Z) [0%nat; 1%nat] StrongRules fuel M h l intercept [0] [0] 1 None squared_score [l0]) = Ok ([(a - b) * (a - b) / 4], [0]) /\
  forall f c, In f two_folds -> (forall v, length v = 1%nat -> train_objective h l (fst f) intercept [0] [0] 1 l0 [c] <= train_objective h l (fst f) intercept [0] [0] 1 l0 v) ->
    held_out squared_score intercept [a; b] f [c] = (a - b) * (a - b).
Proof.
  intros h l a b M fuel l0 T SM Hf HM. assert (N := null_two h l a b M T SM HM). destruct T as (Hm & Ek & Es & Hc & Eo & Ew). split; [rewrite Es; reflexivity|]. split.
  - unfold cross_validate. destruct (lasso_null M (path_of h l intercept [0] [0] 1)) as [s g]. cbn [fst] in N. subst s. rewrite Ek. change (length (data_of (Gaussian [a; b]))) with 2%nat. rewrite two_fold_list.
    unfold two_folds. cbn [run_jobs nth fst]. rewrite !fold_path_value by (auto; try (left; rewrite Ek; reflexivity); rewrite ?Es; cbn; try lia).
    unfold run_fitter, strong_rules. cbn. f_equal. f_equal; f_equal; unfold squared_score, sqn, dot, vsum, rows_of, gather; cbn; unfold dot, vsum; cbn; unfold squared_score, sqn, dot, vsum; cbn; [field|].
    match goal with |- sqrt ?e = 0 => replace e with 0; [apply sqrt_0|] end. unfold rows_of, gather, picked. cbn. unfold sqn, dot, vsum. cbn. field.
  - intros f c Hf' Mn. unfold train_objective in Mn. rewrite Ek, Es, Eo in Mn. unfold own_weights in Mn. rewrite Ew, Es in Mn.
    unfold two_folds in Hf'. destruct Hf' as [<-|[<-|[]]]; [specialize (Mn [b] eq_refl)|specialize (Mn [a] eq_refl)]; cbn in Mn; unfold sum_over, vsum, dot, vsum in Mn; cbn in Mn; unfold held_out, squared_score, taken; cbn; unfold sqn, dot, vsum; cbn.
    + assert (c = b); [|subst; field]. apply (sq_small (l_coef l)); auto. lra.
    + assert (c = a); [|subst; field]. apply (sq_small (l_coef l)); auto. lra.
Qed.
