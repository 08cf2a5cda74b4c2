(** Proofs about the path of mixed lasso problems: whole runs, the largest multiplier, and where they go wrong. *)
From Coq Require Import Reals List Lra Lia Psatz Bool Permutation ZArith.
From Verif Require Import M_loss Vec Spec SpecConvex SpecFista M_quad M_prox M_semi SpecAtom M_shift SpecBase SpecMode M_mode SpecModed SpecWeighted SpecPart SpecGroup M_slope M_mixed M_group M_mixed_atom SpecGatom M_mkkt SpecMkkt M_path M_mpath SpecMpath
  P_quad P_pl P_prox P_feas P_semi P_conj P_shift P_gauge P_part P_mixed P_kinds P_group P_group2 P_calc P_problem P_fista P_sep P_path2 P_mkkt P_mkkt2 P_mpath.
Import ListNotations.
Local Open Scope R_scope.

(** ** Whole runs *)
Lemma covers_initial : forall P, covers P (initial_active P).
Proof. intros P. split; [apply map_length|auto]. Qed.
Lemma inv_start : forall P q null k, grad_lengths P -> length null = mp_size P -> inv P (mk_mstate null (mp_gradient P q null) (repeat false (mp_size P)) (initial_active P) q k).
Proof.
  intros P q null k G L. split; [apply covers_initial|]. cbn [ms_fail ms_gsol]. split; [apply repeat_length|]. unfold mp_gradient. apply enet_length; auto.
Qed.
Lemma main_total : forall fuel P S enet null lag0 lseq, grad_lengths P -> length null = mp_size P -> (10 <= fuel)%nat -> (2 <= length lseq)%nat ->
  exists out, mp_main fuel P S enet null lag0 lseq = Ok out /\ map mpt_lagrange (mo_points out) = tl lseq /\ Forall (good_point P S) (mo_points out) /\
    length (mo_beta out) = length lseq /\ length (mo_df out) = length lseq /\ length (mo_objective out) = length lseq /\
    mo_objective out = mp_func P null :: map (fun pt => mp_func P (mpt_sol pt)) (mo_points out).
Proof.
  intros fuel P S enet null lag0 [|l0 [|l1 ls]] G L Hf Hl; cbn [length] in Hl; try lia. unfold mp_main. cbn [tl].
  destruct (mrun_spec P S fuel (l1 :: ls) l0 _ G (inv_start P (enet_access lag0 enet) null 0 G L) Hf) as (pts & E & M & F & _). rewrite E. cbn [rbind].
  eexists; split; [reflexivity|]. cbn [mo_points mo_beta mo_df mo_objective]. assert (Lp : length pts = length (l1 :: ls)) by (rewrite <- M, map_length; auto).
  cbn [length] in Lp. cbn [length]. rewrite !map_length. repeat split; auto.
Qed.
Lemma main_short : forall fuel P S enet null lag0 lseq, (length lseq < 2)%nat -> mp_main fuel P S enet null lag0 lseq = Err IndexError.
Proof. intros fuel P S enet null lag0 [|l0 [|l1 ls]] H; cbn [length] in H; try lia; reflexivity. Qed.
Lemma main_checked : forall fuel P S null lag0 lseq out, grad_lengths P -> length null = mp_size P -> (10 <= fuel)%nat -> mp_main fuel P S (0, 0) null lag0 lseq = Ok out ->
  Forall (fun pt => mpt_warned pt = false -> passes_check P pt) (mo_points out).
Proof.
  intros fuel P S null lag0 [|l0 [|l1 ls]] out G L Hf E; try discriminate. unfold mp_main in E. rewrite enet_zero_access in E. cbn [tl] in E.
  destruct (mrun_spec P S fuel (l1 :: ls) l0 _ G (inv_start P (0, 0) null 0 G L) Hf) as (pts & E' & _ & _ & Z). rewrite E' in E. cbn [rbind] in E. injection E as <-. cbn [mo_points]. apply Z. reflexivity.
Qed.
Lemma main_near : forall fuel P S null lag0 lseq out, convex_on (mp_size P) (mp_func P) -> right_gradient P -> weights_given P -> exact_solver P S -> length null = mp_size P -> (10 <= fuel)%nat ->
  Forall (fun l => 0 < l) lseq -> mp_main fuel P S (0, 0) null lag0 lseq = Ok out ->
  Forall (fun pt => mpt_warned pt = false -> near_minimizer P (mpt_lagrange pt) mtol (mpt_sol pt)) (mo_points out).
Proof.
  intros fuel P S null lag0 lseq out Hc Hg Hw He L Hf Hp E. assert (G : grad_lengths P) by (intros x Lx; apply (Hg x Lx)).
  assert (C := main_checked fuel P S null lag0 lseq out G L Hf E). assert (L2 : (2 <= length lseq)%nat).
  { destruct (le_lt_dec 2 (length lseq)); auto. rewrite main_short in E by auto. discriminate. }
  destruct (main_total fuel P S (0, 0) null lag0 lseq G L Hf L2) as (out' & E' & M & F & _). rewrite E in E'. injection E' as <-.
  apply Forall_forall. intros pt Hpt Wn. rewrite Forall_forall in C, F. specialize (C pt Hpt Wn). destruct (F pt Hpt) as ((set & k & x & Cv & Es) & _).
  assert (Pl : 0 < mpt_lagrange pt). { rewrite Forall_forall in Hp. apply Hp. assert (I : In (mpt_lagrange pt) (tl lseq)) by (rewrite <- M; apply in_map; auto). destruct lseq; [contradiction|right; auto]. }
  unfold passes_check in C. rewrite Es in *. apply accepted_near; auto; [apply He; auto; apply Cv|]. apply any_false. rewrite C, repeat_length. reflexivity.
Qed.

(** ** The largest multiplier *)
Lemma omax_at_most : forall lam l v, at_most (fold_left omax l v) lam <-> at_most v lam /\ Forall (fun a => a <= lam) l.
Proof.
  intros lam. induction l as [|a l IH]; intros v; cbn [fold_left]; [split; [auto|tauto]|]. rewrite IH.
  assert (E : at_most (omax v a) lam <-> at_most v lam /\ a <= lam). { unfold omax, at_most. destruct v as [b|]; [|tauto]. unfold Rmax. destruct (Rle_dec b a); lra. }
  rewrite E. split; [intros ((A & B) & C); split; auto|intros (A & B); inversion B; subst; auto].
Qed.
Lemma gmax_at_most : forall lam (w f : Z -> R) l v, at_most (fold_left (fun v p => if Rlt_dec 0 (fst p) then omax v (snd p / fst p) else v) (combine (map w l) (map f l)) v) lam <->
  at_most v lam /\ forall g, In g l -> 0 < w g -> f g <= w g * lam.
Proof.
  intros lam w f. induction l as [|a l IH]; intros v; cbn [map combine fold_left]; [split; [intros; split; auto; intros g []|tauto]|]. rewrite IH. cbn [fst snd].
  destruct (Rlt_dec 0 (w a)) as [P|N].
  - assert (E : at_most (omax v (f a / w a)) lam <-> at_most v lam /\ f a <= w a * lam).
    { assert (Q : f a / w a <= lam <-> f a <= w a * lam). { split; intros H. - replace (f a) with (w a * (f a / w a)) by (field; lra). apply Rmult_le_compat_l; lra. - apply Rmult_le_reg_l with (w a); auto. replace (w a * (f a / w a)) with (f a) by (field; lra). auto. }
      rewrite <- Q. unfold omax, at_most. destruct v as [b|]; [|tauto]. unfold Rmax. destruct (Rle_dec b (f a / w a)); lra. }
    rewrite E. split; [intros ((A & B) & C); split; auto; intros g [<-|H] Hg; auto|intros (A & B); split; [split; auto; apply B; auto; left; auto|intros g H Hg; apply B; auto; right; auto]].
  - split; intros (A & B); (split; [exact A|]); intros g.
    + intros [<-|H] Hg; [lra|auto].
    + intros H Hg. apply B; auto. right; auto.
Qed.
Lemma group_norms_labels : forall labels ids given x, enumerates ids labels -> length x = length labels ->
  group_norms (ml_kinds labels ids) (length (ml_warr labels ids given)) x = map (fun g => norm (block labels g x)) ids.
Proof.
  intros labels ids given x En Lx. assert (Lw : length (ml_warr labels ids given) = length ids) by apply map_length.
  apply (nth_ext_R _ _); [rewrite map_length, group_norms_length; auto|]. rewrite group_norms_length. intros k Hk.
  rewrite (group_norms_nth (length (ml_warr labels ids given))); [|apply ml_valid'; auto|lia|rewrite ml_kinds_length; auto].
  rewrite (ml_cls_group labels ids En) by (auto; lia). rewrite (nth_map_R' _ _ k 0%Z 0) by lia. auto.
Qed.
Lemma max_at_norm : forall P s, max_at P s = mixed_dual_seminorm (ml_kinds (mp_labels P) (mixed_groups (mp_labels P))) (ml_warr (mp_labels P) (mixed_groups (mp_labels P)) (mp_weights P)) (mp_grad P s).
Proof.
  intros P s. unfold max_at, mlatom_conjugate, mp_atom. cbn [ml_base ml_dual ml_labels ml_weights ml_par]. unfold conjugate_base. cbn.
  try (destruct (Req_EM_T 0 0) as [_|N]; [|exfalso; apply N; reflexivity]). reflexivity.
Qed.
Lemma block_all : forall (Q : R -> Prop) labels l (g : vec), length g = length labels -> Forall Q (block labels l g) <-> forall i, (i < length labels)%nat -> nth i labels 0%Z = l -> Q (nth i g 0).
Proof.
  intros Q labels l g L. split.
  - intros F i Hi E. destruct (block_at labels l g g i Hi L L E) as (p & Hp & Ep & _). rewrite <- Ep. rewrite Forall_forall in F. apply F. apply nth_In. auto.
  - intros H. apply Forall_forall. intros a Ha. destruct (In_nth _ _ 0 Ha) as (p & Hp & <-). destruct (block_inv labels l g g p L L Hp) as (i & Hi & E & -> & _). auto.
Qed.
Lemma max_meaning : forall P s lam, grad_lengths P -> length s = mp_size P -> 0 <= lam -> weights_positive P -> let g := mp_grad P s in
  at_most (max_at P s) lam <-> (forall i, (i < mp_size P)%nat -> nth i (mp_labels P) 0%Z = (-2)%Z -> Rabs (nth i g 0) <= lam) /\
    (forall i, (i < mp_size P)%nat -> nth i (mp_labels P) 0%Z = (-3)%Z -> nth i g 0 <= lam) /\
    (forall l, In l (mixed_groups (mp_labels P)) -> norm (block (mp_labels P) l g) <= group_weight (mp_weights P) (mp_labels P) l * lam).
Proof.
  intros P s lam G L Hl W g. assert (Lg : length g = length (mp_labels P)) by (apply (G s L)). rewrite max_at_norm. fold g. unfold mixed_dual_seminorm.
  rewrite (group_norms_labels _ _ _ _ (Permutation_refl _) Lg). unfold ml_warr at 1. rewrite gmax_at_most, !omax_at_most.
  rewrite (kpick_block is_l1 _ _ (-2)%Z) by (intros l' _; apply kind_tests). rewrite (kpick_block is_pos _ _ (-3)%Z) by (intros l' _; apply kind_tests).
  assert (A : Forall (fun a => a <= lam) (vabs (block (mp_labels P) (-2) g)) <-> forall i, (i < mp_size P)%nat -> nth i (mp_labels P) 0%Z = (-2)%Z -> Rabs (nth i g 0) <= lam).
  { unfold vabs. rewrite Forall_map. apply (block_all (fun a => Rabs a <= lam)). auto. }
  assert (B : Forall (fun a => a <= lam) (map (fun a => Rmax a 0) (block (mp_labels P) (-3) g)) <-> forall i, (i < mp_size P)%nat -> nth i (mp_labels P) 0%Z = (-3)%Z -> nth i g 0 <= lam).
  { rewrite Forall_map, (block_all (fun a => Rmax a 0 <= lam)) by auto. split; intros H i Hi E; specialize (H i Hi E); unfold Rmax in *; destruct (Rle_dec _ _) in *; lra. }
  rewrite A, B. cbn [at_most]. change (weight_of (mp_weights P) (mp_labels P)) with (group_weight (mp_weights P) (mp_labels P)).
  split; [intros (((_ & H1) & H2) & H3)|intros (H1 & H2 & H3)]; (split; [auto|]); try (split; auto); intros; apply H3; auto.
Qed.

(** ** The null solution *)
Lemma mixed_groups_in : forall labels g, In g (mixed_groups labels) -> In g labels /\ reserved g = false.
Proof. intros labels g H. unfold mixed_groups in H. apply nodup_In in H || idtac. apply filter_In in H. destruct H as (A & B). apply negb_true_iff in B. rewrite ?nodup_In in A. auto. Qed.
Lemma keep_put : forall m (labels : list Z) (v : vec), length labels = length m -> length v = length (keep m labels) -> keep m (embed_mask m v) = v.
Proof.
  unfold embed_mask. induction m as [|b m IH]; intros [|c labels] v L Lv; try discriminate; [destruct v; auto; discriminate|]. destruct b; cbn [keep put] in *.
  - destruct v as [|a v]; [discriminate|]. cbn [keep]. f_equal. apply (IH labels); simpl in *; lia.
  - apply (IH labels); simpl in *; lia.
Qed.
Lemma keep_mask_in : forall m (labels : list Z) l, In l (keep m labels) -> exists i, (i < length labels)%nat /\ nth i m false = true /\ nth i labels 0%Z = l.
Proof.
  induction m as [|b m IH]; intros [|c labels] l H; try contradiction. destruct b; cbn [keep] in H.
  - destruct H as [<-|H]; [exists 0%nat; cbn; repeat split; auto; lia|]. destruct (IH labels l H) as (i & A & B & C). exists (S i). cbn. repeat split; auto; lia.
  - destruct (IH labels l H) as (i & A & B & C). exists (S i). cbn. repeat split; auto; lia.
Qed.
Lemma keep_initial : forall P l, In l (keep (initial_active P) (mp_labels P)) -> l = (-1)%Z \/ l = (-4)%Z.
Proof.
  intros P l H. destruct (keep_mask_in _ _ _ H) as (i & A & B & C). rewrite initial_nth in B by auto. rewrite C in B. apply orb_true_iff in B. rewrite !Z.eqb_eq in B. auto.
Qed.
Lemma initial_no_groups : forall P, mixed_groups (keep (initial_active P) (mp_labels P)) = [].
Proof.
  intros P. destruct (mixed_groups (keep (initial_active P) (mp_labels P))) as [|g l] eqn:E; auto. exfalso.
  assert (I : In g (mixed_groups (keep (initial_active P) (mp_labels P)))) by (rewrite E; left; auto). apply mixed_groups_in in I. destruct I as (I & R).
  destruct (keep_initial P g I) as [->| ->]; discriminate.
Qed.
Lemma null_facts : forall P b, right_gradient P -> null_minimizer P b -> let s := embed_mask (initial_active P) b in let g := mp_grad P s in
  length s = mp_size P /\ path_pen P s = Fin 0 /\ dot g s = 0 /\ Forall (fun a => a = 0) (block (mp_labels P) (-1) g) /\
  (forall i, (i < mp_size P)%nat -> nth i (mp_labels P) 0%Z = (-4)%Z -> 0 <= nth i g 0 /\ (nth i s 0 <> 0 -> nth i g 0 = 0)) /\
  (forall l, l <> (-1)%Z -> l <> (-4)%Z -> norm (block (mp_labels P) l s) = 0).
Proof.
  intros P b Hg M s g. set (m := initial_active P) in *. assert (Lm : length m = mp_size P) by apply map_length. assert (Ls : length s = mp_size P) by (unfold s, embed_mask; rewrite put_length; auto).
  assert (Lb : length b = length (keep m (mp_labels P))) by apply M. assert (G := Hg s Ls). fold g in G. assert (Lg : length g = mp_size P) by apply G.
  assert (N := initial_no_groups P). fold m in N. assert (W : weights_ok (keep m (mp_labels P)) (mp_weights P)) by (intros x Hx; rewrite N in Hx; contradiction).
  destruct (restricted_exact P m 1 b Hg W ltac:(intros x Hx; rewrite N in Hx; contradiction) Lm ltac:(lra) M) as (r & Er & Eq & F). specialize (F (covers_initial P)). fold s in Er, Eq, F. fold g in Eq, F.
  assert (Ab : forall l, l <> (-1)%Z -> l <> (-4)%Z -> block (keep m (mp_labels P)) l b = []).
  { intros l H1 H4. apply block_absent. intros I. destruct (keep_initial P l I); auto. }
  assert (Nz : forall l, l <> (-1)%Z -> l <> (-4)%Z -> norm (block (mp_labels P) l s) = 0).
  { intros l H1 H4. unfold s. rewrite block_put_norm by (unfold mp_size in *; lia). rewrite Ab by auto. unfold norm. cbn. apply sqrt_0. }
  assert (R0 : r = 0).
  { unfold path_pen, s in Er. rewrite pen_put in Er by (unfold mp_size in *; try lia; intros x Hx; rewrite N in Hx; contradiction). rewrite pen_formula, N in Er. rewrite (Ab (-3)%Z), (Ab (-2)%Z) in Er by lia.
    destruct (nonneg_dec []) in Er; [|discriminate]. destruct (nonneg_dec (block _ _ _)) in Er; [|discriminate]. injection Er as Er. unfold ell1, vsum in Er. cbn in Er. lra. }
  subst r. repeat split; auto; try lra.
  - (* nonnegative coordinates *)
    assert (Lk : length (keep m g) = length (keep m (mp_labels P))) by (apply keep_length; unfold mp_size in *; lia).
    assert (R := restrict_gradient (mp_size P) (mp_func P) m b g Lm ltac:(lia) G). rewrite Lk in R.
    assert (St := minimizer_stat _ _ _ _ 1 b W ltac:(lra) R M). destruct (stat_labels (keep m (mp_labels P)) (mixed_groups (keep m (mp_labels P))) (mp_weights P) (Permutation_refl _) W 1 _ _ St) as (_ & _ & _ & S4 & _).
    rewrite block_keep_all in S4; [|unfold mp_size in *; lia|lia|]. 2:{ intros j Hj E. unfold m. rewrite initial_nth by lia. rewrite E. reflexivity. }
    destruct (block_at (mp_labels P) (-4)%Z g g i H ltac:(unfold mp_size in *; lia) ltac:(unfold mp_size in *; lia) H0) as (p & Hp & Ep & _).
    destruct (stat_nn _ 1 _ _ p ltac:(lra) S4 Hp) as (A & _). rewrite Ep in A. auto.
  - assert (Lk : length (keep m g) = length (keep m (mp_labels P))) by (apply keep_length; unfold mp_size in *; lia).
    assert (R := restrict_gradient (mp_size P) (mp_func P) m b g Lm ltac:(lia) G). rewrite Lk in R.
    assert (St := minimizer_stat _ _ _ _ 1 b W ltac:(lra) R M). destruct (stat_labels (keep m (mp_labels P)) (mixed_groups (keep m (mp_labels P))) (mp_weights P) (Permutation_refl _) W 1 _ _ St) as (_ & _ & _ & S4 & _).
    rewrite block_keep_all in S4; [|unfold mp_size in *; lia|lia|]. 2:{ intros j Hj E. unfold m. rewrite initial_nth by lia. rewrite E. reflexivity. }
    assert (Eb : block (keep m (mp_labels P)) (-4) b = block (mp_labels P) (-4) s).
    { rewrite <- (block_keep_all (-4)%Z m (mp_labels P) s) by (first [unfold mp_size in *; lia | intros j Hj E; unfold m; rewrite initial_nth by lia; rewrite E; reflexivity]). f_equal. symmetry. unfold s. apply (keep_put m (mp_labels P)); unfold mp_size in *; lia. }
    rewrite Eb in S4. destruct (block_at (mp_labels P) (-4)%Z g s i H ltac:(unfold mp_size in *; lia) ltac:(unfold mp_size in *; lia) H0) as (p & Hp & Ep & Es).
    destruct (stat_nn _ 1 _ _ p ltac:(lra) S4 Hp) as (_ & _ & C). rewrite Ep, Es in C. auto.
Qed.
Lemma null_optimal_iff : forall P b lam, convex_on (mp_size P) (mp_func P) -> right_gradient P -> weights_positive P -> ~ In (-3)%Z (mp_labels P) -> null_minimizer P b -> 0 < lam ->
  path_minimizer P lam (embed_mask (initial_active P) b) <-> at_most (max_at P (embed_mask (initial_active P) b)) lam.
Proof.
  intros P b lam Hc Hg W N3 M Hl. destruct (null_facts P b Hg M) as (Ls & Pn & Ds & F1 & F4 & Fz). set (s := embed_mask (initial_active P) b) in *. set (g := mp_grad P s) in *. cbv zeta in *.
  assert (G := Hg s Ls). fold g in G. assert (Lg : length g = mp_size P) by apply G. assert (GL : grad_lengths P) by (intros x Lx; apply (Hg x Lx)).
  assert (Wo : weights_ok (mp_labels P) (mp_weights P)) by (intros l Il; apply Rlt_le; apply (W l Il)).
  rewrite (max_meaning P s lam GL Ls ltac:(lra) W). fold g. split.
  - intros A. assert (St := minimizer_stat _ _ _ g lam s Wo Hl G A). destruct (stat_labels (mp_labels P) (mixed_groups (mp_labels P)) (mp_weights P) (Permutation_refl _) Wo lam _ _ St) as (_ & S2 & _ & _ & Sg). repeat split.
    + intros i Hi E. destruct (block_at (mp_labels P) (-2)%Z g s i Hi Lg Ls E) as (p & Hp & Ep & _). destruct (stat_l1 _ lam _ _ p Hl S2 Hp) as (B & _). rewrite Ep in B. auto.
    + intros i Hi E. exfalso. apply N3. rewrite <- E. apply nth_In. auto.
    + intros l Il. destruct (mixed_groups_in _ _ Il) as (I & R). destruct (stat_group _ lam _ _ _ Hl (Wo l Il) (Sg l I R)) as (B & _). lra.
  - intros (A2 & _ & Ag). assert (NR : forall i, (i < length (mp_labels P))%nat -> ~ reported (mp_labels P) (group_weight (mp_weights P) (mp_labels P)) g s lam 0 i).
    { intros i Hi. unfold reported. cbv zeta. intros [(E & H)|[(E & H)|[(E & H)|(E & H)]]].
      - specialize (A2 i Hi E). destruct H as [H|(H & _)]; [lra|]. apply H. assert (Z := Fz (-2)%Z ltac:(lia) ltac:(lia)). destruct (block_at (mp_labels P) (-2)%Z g s i Hi Lg Ls E) as (p & Hp & _ & Es).
        assert (Z' : sqn (block (mp_labels P) (-2) s) = 0) by (rewrite <- norm_sq, Z; ring). apply sqn_eq_zero in Z'. rewrite <- Es, Z'. apply nth_zeros.
      - apply N3. rewrite <- E. apply nth_In. auto.
      - destruct (F4 i Hi E) as (P4 & Q4). destruct H as [H|(H & H')]; [lra|]. rewrite (Q4 H) in H'. lra.
      - assert (Il : In (nth i (mp_labels P) 0%Z) (mixed_groups (mp_labels P))) by (apply group_in; auto; apply nth_In; auto). specialize (Ag _ Il). destruct H as [H|(H & _)]; [lra|]. apply H. apply Fz; intros C; rewrite C in E; discriminate. }
    split; [exact Ls|]. split.
    + unfold objective, mfun, gmode. unfold path_pen in Pn. rewrite Pn. eexists; reflexivity.
    + intros y Ly. unfold objective, mfun, gmode. unfold path_pen in Pn. rewrite Pn.
      destruct (mixed_pen (mp_labels P) (group_weight (mp_weights P) (mp_labels P)) y) as [t|] eqn:Et; [|exact I]. cbn [ext_scale ext_add ext_le].
      assert (Lo := sound_lower (mp_labels P) (mp_weights P) Wo lam 0 g s Hl Lg Ls NR F1 y t Ly Et). assert (T := convex_tangent (mp_size P) (mp_func P) s g y Hc G Ls Ly). rewrite dot_sub_r in T by (unfold mp_size in *; congruence). rewrite Ds in T. nra.
Qed.

(** ** Reading the attributes *)
Lemma max_first : forall P solve0, exists z, let v := embed_mask (initial_active P) (solve0 (max_at P (zeros (mp_size P)))) in
  get_max P solve0 fresh = (max_at P v, z) /\ get_max P solve0 z = (max_at P v, z) /\ get_null P solve0 z = (v, z).
Proof. intros P solve0. eexists. repeat split. Qed.
Lemma null_first : forall P solve0, exists z, let v := embed_mask (initial_active P) (solve0 (max_at P (zeros (mp_size P)))) in
  get_null P solve0 fresh = (v, z) /\ get_max P solve0 z = (max_at P (zeros (mp_size P)), z) /\ get_null P solve0 z = (v, z).
Proof. intros P solve0. eexists. repeat split. Qed.

(** ** The sequence *)
Lemma mp_sequence_nth : forall M prop nstep i, (2 <= nstep)%nat -> (i < nstep)%nat -> nth i (mp_sequence M prop nstep) 0 = M * exp (ln prop * (INR i / INR (nstep - 1))).
Proof.
  intros M prop nstep i Hn Hi. assert (E := sequence_nth M 1 prop nstep i Hn Hi). unfold mp_sequence. rewrite (map_ext _ (fun a => a)) in E by (intros; field). rewrite map_id in E. rewrite E. field.
Qed.
Lemma sequence_shape : forall M prop nstep, 0 < M -> 0 < prop < 1 -> (2 <= nstep)%nat -> let l := mp_sequence M prop nstep in
  length l = nstep /\ nth 0 l 0 = M /\ nth (nstep - 1) l 0 = M * prop /\ (forall i, (S i < nstep)%nat -> nth (S i) l 0 < nth i l 0) /\ Forall (fun a => 0 < a) l.
Proof.
  intros M prop nstep HM Hp Hn l. assert (Ll : length l = nstep) by (unfold l, mp_sequence; rewrite rev_length, map_length, linspace_length; auto). assert (Pn : 0 < INR (nstep - 1)) by (apply lt_0_INR; lia). assert (Nl : ln prop < 0) by (rewrite <- ln_1; apply ln_increasing; lra).
  split; auto. split; [|split; [|split]].
  - unfold l. rewrite mp_sequence_nth by lia. cbn [INR]. unfold Rdiv. rewrite Rmult_0_l, Rmult_0_r, exp_0. ring.
  - unfold l. rewrite mp_sequence_nth by lia. replace (ln prop * (INR (nstep - 1) / INR (nstep - 1))) with (ln prop) by (field; lra). rewrite exp_ln by lra. auto.
  - intros i Hi. unfold l. rewrite !mp_sequence_nth by lia. apply Rmult_lt_compat_l; auto. apply exp_increasing. rewrite S_INR. assert (0 < / INR (nstep - 1)) by (apply Rinv_0_lt_compat; auto). unfold Rdiv. nra.
  - apply Forall_forall. intros a Ha. unfold l, mp_sequence in Ha. apply in_rev in Ha. apply in_map_iff in Ha. destruct Ha as (t & <- & _). apply Rmult_lt_0_compat; auto. apply exp_pos.
Qed.
