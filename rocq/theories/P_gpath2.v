(** Where a group lasso path starts: the dual norm of the null gradient; strong sets; subsampled paths. *)
From Coq Require Import Reals List Lra Lia Arith Bool ZArith Permutation.
From Verif Require Import M_affine SpecAffine P_affine P_affine2 M_loss SpecLoss SpecSmooth P_smooth Vec Spec SpecConvex M_quad M_prox M_semi M_weighted P_quad P_calc P_sep P_feas M_problem M_cv SpecCv P_cv M_path SpecPath P_path P_path2 P_path3 P_path4 P_path6 P_path7
  SpecPart SpecGroup M_mixed M_group SpecGatom P_part P_mixed P_kinds P_group P_sgl5 M_gpath SpecGpath P_gpath.
Import ListNotations.
Local Open Scope R_scope.

Definition gstep (v : option R) (p : R * R) : option R := if Rlt_dec 0 (fst p) then omax v (snd p / fst p) else v.
Lemma fold_gstep : forall (f w : Z -> R) l v M, fold_left gstep (combine (map w l) (map f l)) v = Some M ->
  (forall g, In g l -> 0 < w g -> f g / w g <= M) /\ (forall r, v = Some r -> r <= M) /\ (v = Some M \/ exists g, In g l /\ 0 < w g /\ f g / w g = M).
Proof.
  intros f w. induction l as [|g l IH]; intros v M E.
  - cbn in E. split; [intros g []|]. split; [intros r Er; rewrite E in Er; injection Er as <-; lra|left; auto].
  - cbn [map combine fold_left] in E. destruct (IH _ _ E) as (A & B & C). unfold gstep in B, C. cbn [fst snd] in B, C. destruct (Rlt_dec 0 (w g)) as [Pg|Ng].
    + assert (Bg := B _ eq_refl). unfold omax in *. split; [|split].
      * intros h [->|Hh] Ph; auto. destruct v as [r|]; [apply Rle_trans with (Rmax r (f h / w h)); [apply Rmax_r|]|]; auto.
      * intros r ->. apply Rle_trans with (Rmax r (f g / w g)); [apply Rmax_l|auto].
      * destruct C as [C|(h & Hh & Ph & Eh)]; [|right; exists h; split; [right|]; auto]. injection C as C. destruct v as [r|]; [|right; exists g; split; [left|]; auto]. unfold Rmax in C. destruct (Rle_dec r (f g / w g)); [right; exists g; split; [left; auto|auto]|left; congruence].
    + split; [|split; auto].
      * intros h [->|Hh] Ph; [contradiction|auto].
      * destruct C as [C|(h & Hh & Ph & Eh)]; [left; auto|right; exists h; split; [right|]; auto].
Qed.
Lemma fold_gstep_some : forall (f w : Z -> R) l v, (v <> None \/ exists g, In g l /\ 0 < w g) -> exists M, fold_left gstep (combine (map w l) (map f l)) v = Some M.
Proof.
  intros f w. induction l as [|g l IH]; intros v H.
  - destruct H as [H|(g & [] & _)]. destruct v; [eexists; reflexivity|congruence].
  - cbn [map combine fold_left]. apply IH. unfold gstep. cbn [fst snd]. destruct (Rlt_dec 0 (w g)) as [P|N]; [left; unfold omax; discriminate|]. destruct H as [H|(h & [->|Hh] & Ph)]; [left; auto|contradiction|right; eauto].
Qed.
(** the largest ||g_h|| / w_h over the penalized groups *)
Lemma dual_value : forall labels given x, length x = length labels -> (exists g, In g labels /\ 0 < group_weight given labels g) -> exists M, g_seminorm true labels given x 1 = Ok (Fin M) /\
  (forall g, In g labels -> 0 < group_weight given labels g -> norm (block labels g x) <= M * group_weight given labels g) /\ exists g, In g labels /\ 0 < group_weight given labels g /\ norm (block labels g x) = M * group_weight given labels g.
Proof.
  intros labels given x Lx (g0 & Hg0 & Pg0). set (w := group_weight given labels) in *. unfold g_seminorm, mixed_dual_seminorm. rewrite !(kpick_none _ [] (g_only labels)) by auto. cbn [vabs map fold_left]. rewrite group_norms_map, warr_map by auto. fold w.
  assert (I : forall g, In g (g_ids labels) <-> In g labels) by (intros; apply sorted_unique_in). destruct (fold_gstep_some (fun g => norm (block labels g x)) w (g_ids labels) None) as (M & E); [right; exists g0; split; auto; apply I; auto|].
  change (fun v p => if Rlt_dec 0 (fst p) then omax v (snd p / fst p) else v) with gstep. rewrite E. exists M. split; [do 2 f_equal; ring|]. destruct (fold_gstep _ _ _ _ _ E) as (A & _ & C). split.
  - intros g Hg Pg. specialize (A g ltac:(apply I; auto) Pg). apply (Rmult_le_compat_r (w g)) in A; [|lra]. unfold Rdiv in A. rewrite Rmult_assoc, Rinv_l in A by lra. lra.
  - destruct C as [C|(g & Hg & Pg & Eg)]; [discriminate|]. exists g. split; [apply I; auto|]. split; auto. rewrite <- Eg. field. lra.
Qed.
Lemma dual_nothing : forall labels given x, length x = length labels -> (forall g, In g labels -> group_weight given labels g <= 0) -> g_seminorm true labels given x 1 = Err NaNResult.
Proof.
  intros labels given x Lx H. unfold g_seminorm, mixed_dual_seminorm. rewrite !(kpick_none _ [] (g_only labels)) by auto. cbn [vabs map fold_left]. rewrite group_norms_map, warr_map by auto. change (fun v p => if Rlt_dec 0 (fst p) then omax v (snd p / fst p) else v) with gstep.
  assert (F : forall g, In g (g_ids labels) -> group_weight given labels g <= 0) by (intros g Hg; apply H; apply sorted_unique_in; auto). replace (fold_left gstep _ None) with (@None R); auto. symmetry. revert F. generalize (g_ids labels). induction l as [|g l IH]; intros F; auto. cbn [map combine fold_left]. unfold gstep at 2. cbn [fst snd]. destruct (Rlt_dec 0 (group_weight given labels g)) as [P|_]; [specialize (F g (or_introl eq_refl)); lra|]. apply IH. intros; apply F; right; auto.
Qed.
Theorem gsequence_shape : forall labels given g prop nstep alpha ls, length g = length labels -> (exists h, In h labels /\ 0 < group_weight given labels h /\ norm (block labels h g) <> 0) -> 0 < prop < 1 -> (2 <= nstep)%nat -> 0 < alpha ->
  g_lagrange_sequence labels given g prop nstep alpha = Ok ls ->
  length ls = nstep /\ (forall i, (S i < nstep)%nat -> 0 < nth (S i) ls 0 < nth i ls 0) /\ nth (nstep - 1) ls 0 = prop * nth 0 ls 0 /\
  (forall h, In h labels -> 0 < group_weight given labels h -> norm (block labels h g) <= alpha * nth 0 ls 0 * group_weight given labels h) /\
  exists h, In h labels /\ 0 < group_weight given labels h /\ norm (block labels h g) = alpha * nth 0 ls 0 * group_weight given labels h.
Proof.
  intros labels given g prop nstep alpha ls L (h0 & Hh0 & Ph0 & Gh0) Hp Hn Ha E. destruct (dual_value labels given g L) as (M & EM & B & h1 & Hh1 & Ph1 & Eh1); [eauto|]. unfold g_lagrange_sequence in E. rewrite EM in E. cbn [rbind] in E. apply Ok_inj in E. subst ls.
  assert (PM : 0 < M). { specialize (B h0 Hh0 Ph0). assert (X := norm_nonneg (block labels h0 g)). nra. } assert (Lp : ln prop < 0) by (rewrite <- ln_1; apply ln_increasing; lra). assert (Pn : 0 < INR (nstep - 1)) by (apply lt_0_INR; lia).
  assert (N0 : nth 0 (map (fun a => a / alpha) (rev (map (fun t => M * exp t) (linspace (ln prop) 0 nstep)))) 0 = M / alpha). { rewrite sequence_nth by lia. cbn [INR]. unfold Rdiv at 2. rewrite Rmult_0_l, Rmult_0_r, exp_0. field. lra. }
  split; [rewrite map_length, rev_length, map_length; apply linspace_length|]. split.
  - intros i Hi. rewrite !sequence_nth by lia. split; [apply Rdiv_lt_0_compat; auto; apply Rmult_lt_0_compat; auto; apply exp_pos|]. unfold Rdiv. apply Rmult_lt_compat_r; [apply Rinv_0_lt_compat; auto|]. apply Rmult_lt_compat_l; auto. apply exp_increasing. rewrite S_INR. assert (0 < / INR (nstep - 1)) by (apply Rinv_0_lt_compat; auto). nra.
  - split; [|split].
    + rewrite N0, sequence_nth by lia. replace (INR (nstep - 1) / INR (nstep - 1)) with 1 by (field; lra). rewrite Rmult_1_r, exp_ln by lra. field. lra.
    + intros h Hh Ph. rewrite N0. replace (alpha * (M / alpha)) with M by (field; lra). auto.
    + exists h1. rewrite N0. replace (alpha * (M / alpha)) with M by (field; lra). auto.
Qed.
Section Null.
Variables (B : lpath) (labels : list Z) (given : Z -> option R).
Local Notation w := (group_weight given labels) (only parsing).
Hypothesis GP : good_path B.
Hypothesis LB : length labels = lp_size B.
Hypothesis WB : lp_weights B = map w labels.
Lemma weights_ok : forall h, In h labels -> 0 <= w h.
Proof. intros h Hh. destruct (gp_w _ GP) as (_ & N). unfold nonneg in N. rewrite Forall_forall in N. apply N. rewrite WB. apply in_map_iff. eauto. Qed.
Lemma zero_block_nth : forall (ls : list Z) (s : vec) j, length s = length ls -> (j < length ls)%nat -> norm (block ls (nth j ls 0%Z) s) = 0 -> nth j s 0 = 0.
Proof.
  intros ls s j L Hj H. apply norm_eq_zero in H. revert s j L Hj H. induction ls as [|l ls IH]; intros [|a s] j L Hj H; try discriminate; [cbn in Hj; lia|]. rewrite block_cons in H. destruct j as [|j]; cbn [nth] in *.
  - rewrite Z.eqb_refl in H. unfold zeros in H. cbn [length repeat] in H. congruence.
  - apply IH; [cbn in L; congruence|cbn in Hj; lia|]. destruct (Z.eqb (nth j ls 0%Z) l); auto. unfold zeros in *. cbn [length repeat] in H. congruence.
Qed.
Lemma gnull_gradient : forall s lam, group_null B labels w s -> path_gradient B s (t_lin (lp_X B) s) lam = path_gradient B s (t_lin (lp_X B) s) 1.
Proof.
  intros s lam (Ls & Z & _). unfold path_gradient. f_equal. unfold enet_grad. apply map_ext_in. intros j Hj. apply in_seq in Hj. unfold enet_entry. destruct (is0 (nth j (lp_weights B) 0)) eqn:E; auto. apply is0_false in E. rewrite WB in E. rewrite (nth_indep _ 0 (w 0%Z)) in E by (rewrite map_length; lia). rewrite (map_nth w) in E.
  assert (Hz := Z (nth j labels 0%Z) ltac:(apply nth_In; lia) E). rewrite (zero_block_nth labels s j) by (auto; lia). ring.
Qed.
Theorem gnull_optimal : forall s prop nstep ls lam, group_null B labels w s -> (exists h, In h labels /\ 0 < w h) -> (2 <= nstep)%nat -> g_lagrange_sequence labels given (path_gradient B s (t_lin (lp_X B) s) 1) prop nstep (lp_alpha B) = Ok ls -> nth 0 ls 0 <= lam -> 0 < lam ->
  forall v, length v = lp_size B -> gpath_objective B labels w lam s <= gpath_objective B labels w lam v.
Proof.
  intros s prop nstep ls lam NS Ex Hn E Hl0 Hl v Lv. assert (NS' := NS). destruct NS' as (Ls & Z & St). assert (Al := alpha_lam B GP lam Hl). destruct (gp_alpha _ GP) as (Ha & _). set (g := path_gradient B s (t_lin (lp_X B) s) 1) in *.
  assert (G := path_gradient_right B GP lam s Ls). rewrite (gnull_gradient s lam NS) in G. fold g in G. assert (Lg : length g = lp_size B) by apply G. rewrite <- LB in *.
  destruct (dual_value labels given g Lg Ex) as (M & EM & Bd & _). unfold g_lagrange_sequence in E. rewrite EM in E. cbn [rbind] in E. apply Ok_inj in E. subst ls. rewrite sequence_nth in Hl0 by lia. cbn [INR] in Hl0. unfold Rdiv at 2 in Hl0. rewrite Rmult_0_l, Rmult_0_r, exp_0, Rmult_1_r in Hl0.
  assert (Ml : M <= lp_alpha B * lam). { apply (Rmult_le_compat_l (lp_alpha B)) in Hl0; [|lra]. replace (lp_alpha B * (M / lp_alpha B)) with M in Hl0 by (field; lra). auto. }
  assert (Cv := smooth_convex B GP lam ltac:(lra)). rewrite <- LB in Cv. assert (K := gkkt_sound labels (smooth_part B lam) given g s (lp_alpha B * lam) 0 Cv G Ls weights_ok Al ltac:(lra)). unfold gpath_objective. cbv zeta in K. rewrite <- (Rplus_0_r (group_objective labels (smooth_part B lam) w (lp_alpha B * lam) v)).
  refine (Rle_trans _ _ _ (K _ v Lv) _); [|rewrite Rmult_0_l; lra]. apply g_passes_iff. intros h Hh. unfold g_active_fails, g_inactive_term. change (weight_of given labels h) with (w h). rewrite !zpick_block, mean_warr. assert (Hw := weights_ok h Hh).
  destruct (g_active (w h) (block labels h s)) eqn:Ac; [apply active_true in Ac as (A1 & A2); rewrite (Z h Hh) in A1 by lra; lra|]. destruct (is0 (w h)) eqn:E0.
  - apply is0_true in E0. rewrite (St h Hh E0). split; [apply gtb_false; lra|lra].
  - apply is0_false in E0. split; auto. assert (Pw : 0 < w h) by lra. specialize (Bd h Hh Pw). assert (Pd : 0 < lp_alpha B * lam * w h) by (apply Rmult_lt_0_compat; auto). apply (Rmult_le_reg_r (lp_alpha B * lam * w h)); auto. unfold Rdiv. rewrite Rmult_assoc, Rinv_l by lra. assert (M * w h <= lp_alpha B * lam * w h) by (apply Rmult_le_compat_r; lra). lra.
Qed.
Theorem gnull_not_optimal : forall s prop nstep ls lam, group_null B labels w s -> (exists h, In h labels /\ 0 < w h /\ norm (block labels h (path_gradient B s (t_lin (lp_X B) s) 1)) <> 0) -> 0 < prop < 1 -> (2 <= nstep)%nat ->
  g_lagrange_sequence labels given (path_gradient B s (t_lin (lp_X B) s) 1) prop nstep (lp_alpha B) = Ok ls -> 0 < lam < nth 0 ls 0 -> ~ forall v, length v = lp_size B -> gpath_objective B labels w lam s <= gpath_objective B labels w lam v.
Proof.
  intros s prop nstep ls lam NS Ex Hp Hn E (Hl & Hl0) C. assert (NS' := NS). destruct NS' as (Ls & Z & St). assert (Al := alpha_lam B GP lam Hl). destruct (gp_alpha _ GP) as (Ha & _). set (g := path_gradient B s (t_lin (lp_X B) s) 1) in *.
  assert (G := path_gradient_right B GP lam s Ls). rewrite (gnull_gradient s lam NS) in G. fold g in G. assert (Lg : length g = lp_size B) by apply G. rewrite <- LB in *.
  destruct (gsequence_shape labels given g prop nstep (lp_alpha B) ls) as (_ & _ & _ & _ & h & Hh & Ph & Eh); auto.
  assert (K := gkkt_complete labels (smooth_part B lam) given g s (lp_alpha B * lam) 0 G Ls weights_ok Al ltac:(lra) C). apply (proj1 (g_passes_iff _ _ _ _ _ _)) with (g := h) in K; auto. destruct K as (_ & K). unfold g_inactive_term in K. change (weight_of given labels h) with (w h) in K. rewrite !zpick_block in K.
  destruct (g_active (w h) (block labels h s)) eqn:Ac; [apply active_true in Ac as (A1 & A2); rewrite (Z h Hh) in A1 by lra; lra|]. replace (is0 (w h)) with false in K by (symmetry; apply is0_false; lra). assert (Pd : 0 < lp_alpha B * lam * w h) by (apply Rmult_lt_0_compat; auto). apply (Rmult_le_compat_r (lp_alpha B * lam * w h)) in K; [|lra]. unfold Rdiv in K. rewrite Rmult_assoc, Rinv_l in K by lra.
  rewrite Eh in K. assert (lp_alpha B * lam < lp_alpha B * nth 0 ls 0) by (apply Rmult_lt_compat_l; auto). assert (lp_alpha B * lam * w h < lp_alpha B * nth 0 ls 0 * w h) by (apply Rmult_lt_compat_r; auto). lra.
Qed.
End Null.
(** the strong set *)
Theorem strong_meaning : forall labels given grad lcur lnew i, (i < length (g_ids labels))%nat -> let g := nth i (g_ids labels) 0%Z in
  nth i (g_strong labels given grad lcur lnew) false = true <->
  (0 < group_weight given labels g /\ (2 * lnew - lcur) * group_weight given labels g < norm (block labels g grad)) \/ (group_weight given labels g <= 0 /\ (norm (block labels g grad) <> 0 \/ 2 * lnew - lcur < 0)).
Proof.
  intros labels given grad lcur lnew i Hi g. unfold g_strong, g_terms. rewrite map_map. set (F := fun x : Z => _). rewrite (nth_indep _ false (F 0%Z)) by (rewrite map_length; auto). rewrite (map_nth F). fold g. unfold F. change (weight_of given labels g) with (group_weight given labels g). rewrite zpick_block. set (w := group_weight given labels g). set (m := norm (block labels g grad)). assert (Nm : 0 <= m) by apply norm_nonneg.
  destruct (Rlt_dec 0 w) as [P|N].
  - rewrite gtb_true. split.
    + intros H. left. split; auto. apply (Rmult_lt_compat_r w) in H; auto. unfold Rdiv in H. rewrite Rmult_assoc, Rinv_l in H by lra. lra.
    + intros [(_ & H)|(H & _)]; [|lra]. apply Rmult_lt_reg_r with w; auto. unfold Rdiv. rewrite Rmult_assoc, Rinv_l by lra. lra.
  - destruct (Rlt_dec 0 m) as [Pm|Nm'].
    + split; auto. intros _. right. split; [lra|]. left. lra.
    + rewrite gtb_true. split; [intros H; right; split; [lra|right; auto]|]. intros [(H & _)|(_ & [H|H])]; try lra.
Qed.
(** the rank of a failing group is its place among the groups *)
Theorem granks_are_places : forall labels given grad s lam tol j, (j < length (g_ids labels))%nat -> let e := fun i => g_inactive_term labels given grad s lam (nth i (g_ids labels) 0%Z) in
  nth j (snd (g_check labels given grad s lam tol)) 0 = if Rle_dec (e j) (1 + tol) then -1 else place (length (g_ids labels)) e j.
Proof.
  intros labels given grad s lam tol j Hj e. cbn [g_check snd]. set (terms := map (g_inactive_term labels given grad s lam) (g_ids labels)). assert (Lt : length terms = length (g_ids labels)) by apply map_length.
  assert (ET : terms = map e (seq 0 (length (g_ids labels)))). { unfold terms, e. clear. apply (nth_ext _ _ 0 0); [rewrite !map_length, seq_length; auto|]. intros i Hi. rewrite map_length in Hi. rewrite (nth_map_seq R (fun i => g_inactive_term labels given grad s lam (nth i (g_ids labels) 0%Z))) by auto. rewrite (nth_indep _ 0 (g_inactive_term labels given grad s lam 0%Z)) by (rewrite map_length; auto). apply map_nth. }
  unfold ranks_of. rewrite (nth_map_seq R (fun j => if Rle_dec (nth j terms 0) (1 + tol) then -1 else INR (length terms) - rankdata terms j)) by lia. rewrite Lt, ET, (nth_map_seq R e), rank_place by auto. auto.
Qed.
