(** Cross-validation of lasso paths from end to end, continued. *)
From Coq Require Import Reals List Lra Lia Arith Bool ZArith Permutation FunctionalExtensionality.
From Verif Require Import M_affine SpecAffine Vec Spec SpecConvex M_quad M_buffer M_loss SpecLoss P_quad P_calc P_sep P_loss P_loss2 P_loss4 SpecSmooth SpecCv M_cv P_cv M_path SpecPath P_path P_path2 P_path3 P_path4 M_semi M_subprob SpecSubprob P_subprob
  M_crossval SpecCrossval P_crossval.
Import ListNotations.
Local Open Scope R_scope.

Lemma nth_map_seq : forall A (F : nat -> A) m j d, (j < m)%nat -> nth j (map F (seq 0 m)) d = F j.
Proof. intros A F m j d H. rewrite (nth_indep _ d (F 0%nat)) by (rewrite map_length, seq_length; auto). rewrite map_nth, seq_nth by auto. reflexivity. Qed.
Lemma summary_spec : forall score X y folds m fits, folds <> [] -> (forall f, In f folds -> length (fits f) = m) ->
  let sc := cv_scores score X y folds (map fits folds) in length (hd [] sc) = m /\ cv_summary score X y folds m fits (mean_scores sc m) (sd_scores sc m).
Proof.
  intros score X y folds m fits Ne L sc. assert (Esc : sc = map (fun f => map (held_out score X y f) (fits f)) folds).
  { unfold sc, cv_scores. clear. induction folds as [|f folds IH]; auto. cbn [map combine]. f_equal; auto. }
  assert (Hd : length (hd [] sc) = m). { rewrite Esc. destruct folds as [|f folds]; [congruence|]. cbn. rewrite map_length. apply L. left; auto. } split; auto.
  assert (Hn : forall j f, (j < m)%nat -> In f folds -> nth j (map (held_out score X y f) (fits f)) 0 = held_out score X y f (nth j (fits f) [])).
  { intros j f Hj Hf. rewrite (nth_indep _ 0 (held_out score X y f [])) by (rewrite map_length, L; auto). apply map_nth. }
  unfold cv_summary, mean_scores, sd_scores. rewrite !map_length, !seq_length. split; auto. split; auto. intros j Hj. rewrite !nth_map_seq by auto. split.
  - unfold mean_over. rewrite Esc, map_map, map_length. f_equal. f_equal. apply map_ext_in. intros f Hf. apply Hn; auto.
  - unfold mean_scores. rewrite nth_map_seq by auto. f_equal. unfold mean_over. rewrite Esc, !map_map, map_length. f_equal. f_equal. apply map_ext_in. intros f Hf. rewrite Hn by auto. f_equal; f_equal; f_equal; f_equal; apply map_ext_in; intros; try rewrite Hn by auto; auto.
Qed.
Lemma null_zero : forall M h l X w e alpha p, good_design X p (l_shape l) -> length w = p -> (forall j, (j < p)%nat -> 0 < nth j w 0) -> fst (lasso_null M (path_of h l X w e alpha)) = zeros p.
Proof.
  intros M h l X w e alpha p (_ & _ & Ei & _) Lw Wp. unfold lasso_null, null_fit. set (P := path_of h l X w e alpha).
  assert (Hu : unpenalized P = []). { unfold unpenalized. destruct (filter _ _) as [|j r] eqn:Eu; auto. exfalso. assert (Hj : In j (j :: r)) by (left; auto). rewrite <- Eu in Hj. apply filter_In in Hj. destruct Hj as (Hj & E0). apply in_seq in Hj. cbn [lp_weights P path_of] in *. unfold is0 in E0. destruct (Req_EM_T (nth j w 0) 0); [|discriminate]. specialize (Wp j ltac:(unfold lp_size in *; cbn in *; lia)). lra. }
  rewrite Hu. cbn. unfold lp_size. cbn [lp_X P path_of]. rewrite Ei. reflexivity.
Qed.
(** ** Strong rules *)
Lemma fold_fit : forall h l train X w e alpha p M fuel l0 ls g, made h l -> copies_weights (l_fam l) = true \/ l_cw l = None -> length train = l_shape l -> (0 < size train)%nat -> tame (l_fam l) -> good_design X p (l_shape l) ->
  length w = p -> (forall j, (j < p)%nat -> 0 < nth j w 0) -> length e = p -> nonneg e -> 0 < alpha <= 1 -> sized M -> Forall (fun a => 0 < a) ls -> (24 <= fuel)%nat ->
  forall P, fold_path h l train X w e alpha = Ok P -> (forall set lam, index_set p set -> 0 < lam -> minimized M (length set) (objective (sub_loss P set lam) (lasso_pen P set lam))) ->
  exists bs ws, run_fitter StrongRules fuel M P (l0 :: ls) (zeros p) g = (Ok (Dict (zeros p :: bs) ws), g) /\ fold_ok h l train X w e alpha p ls bs ws.
Proof.
  intros h l train X w e alpha p M fuel l0 ls g Hm Hc Lt Hs T GX Lw Wp Le Ne Ha SM Pl Hf P EP HM. assert (TV := fun lam v Lv => train_value h l train X w e alpha lam v p Hm Hc Lt Hs T GX Lv Wp P EP).
  assert (Ep : lp_size P = p /\ lp_weights P = w /\ lp_alpha P = alpha). { rewrite fold_path_value in EP by auto. injection EP as <-. unfold lp_size. cbn. destruct GX as (_ & _ & -> & _). auto. } destruct Ep as (Ep & Ew & Ea).
  assert (GP : good_path P). { destruct (fold_eval h l train Hm Hc Lt Hs) as (_ & _ & _ & _ & Of & Lr & _). destruct (made_fits h l Hm) as (F & Hc0). rewrite fold_path_value in EP by auto. injection EP as <-.
    apply (only_good _ _ _ _ _ _ _ _ _ p); auto; [apply scale_nonneg; auto|apply restrict_nonneg, own_nonneg; auto|]. unfold nonneg. rewrite Forall_forall. intros a Ia. apply (In_nth _ _ 0) in Ia as (j & Hj & <-). apply Rlt_le, Wp. lia. }
  destruct (strong_any P GP ltac:(rewrite Ep, Ew; auto) M SM ltac:(rewrite Ep; auto) false 20%nat fuel l0 ls g Pl ltac:(lia) ltac:(lia)) as (pts & E & L & F).
  exists (map pt_beta pts), (map pt_warned pts). split. { unfold run_fitter. rewrite Ep in E. rewrite E. reflexivity. }
  assert (Ln : length pts = length ls) by (rewrite <- L, map_length; auto). split; [rewrite map_length; auto|]. split; [rewrite map_length; auto|]. intros k Hk.
  set (d := mk_point 0 [] true [] [] 0).
  assert (E1 : nth k (map pt_beta pts) [] = pt_beta (nth k pts d)) by (change (@nil R) with (pt_beta d); apply map_nth). assert (E2 : nth k (map pt_warned pts) true = pt_warned (nth k pts d)) by (change true with (pt_warned d); apply map_nth).
  assert (E3 : nth k ls 0 = pt_lagrange (nth k pts d)) by (rewrite <- L; change 0 with (pt_lagrange d); apply map_nth). rewrite E1, E2, E3. rewrite Forall_forall in F. destruct (F (nth k pts d)) as (A1 & A2 & A3); [apply nth_In; lia|]. rewrite Ep in *.
  split; auto. split; auto. intros Nw v Lv. specialize (A3 Nw v Lv). rewrite Ew, Ea in A3. rewrite !TV in A3 by auto. exact A3.
Qed.
Theorem cv_end : forall label shuffle cv order fuel M h l X w e alpha score l0 ls p folds, made h l -> copies_weights (l_fam l) = true \/ l_cw l = None -> tame (l_fam l) -> good_design X p (l_shape l) ->
  length w = p -> (forall j, (j < p)%nat -> 0 < nth j w 0) -> length e = p -> nonneg e -> 0 < alpha <= 1 -> sized M -> Forall (fun a => 0 < a) ls -> (24 <= fuel)%nat ->
  shuffles shuffle -> cv_folds label shuffle cv (l_shape l) = Ok folds -> (2 <= length folds)%nat -> Permutation order (seq 0 (length folds)) ->
  (forall f P, In f folds -> fold_path h l (fst f) X w e alpha = Ok P -> forall set lam, index_set p set -> 0 < lam -> minimized M (length set) (objective (sub_loss P set lam) (lasso_pen P set lam))) ->
  exists fits means sds, cross_validate label shuffle cv order StrongRules fuel M h l X w e alpha None score (l0 :: ls) = (Ok (means, sds), snd (lasso_null M (path_of h l X w e alpha))) /\
    cv_summary score X (data_of (l_fam l)) folds (S (length ls)) fits means sds /\ forall f, In f folds -> exists bs ws, fits f = zeros p :: bs /\ fold_ok h l (fst f) X w e alpha p ls bs ws.
Proof.
  intros label shuffle cv order fuel M h l X w e alpha score l0 ls p folds Hm Hc T GX Lw Wp Le Ne Ha SM Pl Hf Hs Ef H2 Po HM. assert (Pa := cv_partition label shuffle (l_shape l) cv folds Hs Ef). assert (In_t := train_inhabited _ _ Pa H2).
  set (g0 := snd (lasso_null M (path_of h l X w e alpha))). assert (E0 : lasso_null M (path_of h l X w e alpha) = (zeros p, g0)). { rewrite <- (null_zero M h l X w e alpha p GX Lw Wp). unfold g0. destruct (lasso_null _ _); reflexivity. }
  assert (Ld : length (data_of (l_fam l)) = l_shape l). { destruct (made_fits h l Hm) as (F & _). destruct (l_fam l); cbn in F |- *; intuition. }
  set (fit := fun train g => match fold_path h l train X w e alpha with Err x => (Err x, g) | Ok P => run_fitter StrongRules fuel M P (l0 :: ls) (zeros p) g end).
  set (fits := fun f : list bool * list bool => match fst (fit (fst f) g0) with Ok (Dict b _) => b | _ => [] end).
  assert (FF : forall f, In f folds -> exists bs ws, fst (fit (fst f) g0) = Ok (Dict (zeros p :: bs) ws) /\ fold_ok h l (fst f) X w e alpha p ls bs ws).
  { intros f If. assert (Lf : length (fst f) = l_shape l). { destruct Pa as (Pa & _). rewrite Forall_forall in Pa. destruct (Pa f If) as (L & -> & _). rewrite map_length. auto. }
    destruct (fold_path h l (fst f) X w e alpha) as [P|x] eqn:EP; [|rewrite fold_path_value in EP by auto; discriminate].
    destruct (fold_fit h l (fst f) X w e alpha p M fuel l0 ls g0 Hm Hc Lf (In_t f If) T GX Lw Wp Le Ne Ha SM Pl Hf P EP (HM f P If EP)) as (bs & ws & E & O). exists bs, ws. split; auto. unfold fit. rewrite EP, E. reflexivity. }
  assert (Hfit : forall train g, snd (fit train g) = g). { intros train g. unfold fit. destruct (fold_path h l train X w e alpha); reflexivity. }
  assert (Nf : folds <> []) by (destruct folds; [cbn in H2; lia|congruence]).
  destruct (summary_spec score X (data_of (l_fam l)) folds (S (length ls)) fits Nf) as (Hd & Su).
  { intros f If. destruct (FF f If) as (bs & ws & E & (L & _)). unfold fits. rewrite E. cbn. rewrite L. reflexivity. }
  exists fits. eexists. eexists. split; [|split; [exact Su|]].
  - unfold cross_validate. rewrite E0, Ld, Ef. fold fit. rewrite (jobs_spec fit folds Hfit). f_equal.
    rewrite (all_ok_spec _ (fun k => fits (nth k folds ([], [])))).
    + unfold rmap. cbn [rbind]. assert (Em : map (fun k => fits (nth k folds ([], []))) (seq 0 (length folds)) = map fits folds). { clear. induction folds as [|f folds IH]; auto. cbn [length seq map nth]. f_equal. rewrite <- seq_shift, map_map. exact IH. }
      rewrite Em. rewrite Hd. reflexivity.
    + intros k Hk. rewrite (beta_spec (fun k => fst (fit (fst (nth k folds ([], []))) g0))). 2: { apply (Permutation_in k (Permutation_sym Po)). auto. }
      apply in_seq in Hk. destruct (FF (nth k folds ([], []))) as (bs & ws & E & _); [apply nth_In; lia|]. unfold fits. rewrite E. reflexivity.
  - intros f If. destruct (FF f If) as (bs & ws & E & O). exists bs, ws. split; auto. unfold fits. rewrite E. reflexivity.
Qed.
