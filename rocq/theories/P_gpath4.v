(** Strong rules on group lasso paths with an exact solver. *)
From Coq Require Import Reals List Lra Lia Arith Bool ZArith Permutation Sorted.
From Verif Require Import M_affine SpecAffine P_affine P_affine2 M_loss SpecLoss SpecSmooth P_smooth Vec Spec SpecConvex M_quad M_prox M_semi M_weighted P_quad P_calc P_sep P_feas M_problem M_cv SpecCv P_cv M_path SpecPath P_path P_path2 P_path3 P_path4
  SpecPart SpecGroup M_mixed M_group SpecGatom P_part P_mixed P_kinds P_group P_sgl5 M_gpath SpecGpath P_gpath P_gpath3.
From Verif Require P_buffer P_separable.
Import ListNotations.
Local Open Scope R_scope.

Lemma weight_at : forall given groups labels g, In g groups -> group_weight (filled given groups) labels g = group_weight given groups g.
Proof.
  intros given groups labels g H. unfold group_weight at 1. unfold filled. assert (E : existsb (Z.eqb g) groups = true) by (apply existsb_exists; exists g; split; auto; apply Z.eqb_refl). rewrite E. reflexivity.
Qed.
Lemma penalty_ext : forall labels w w' v, (forall g, In g labels -> w g = w' g) -> group_penalty labels w v = group_penalty labels w' v.
Proof. intros labels w w' v H. unfold group_penalty. apply vsum_map_ext. intros g Hg. unfold distinct in Hg. apply -> (nodup_In Z.eq_dec) in Hg. rewrite H by auto. reflexivity. Qed.
Lemma g_check_length : forall groups weights grad s lam tol, length (fst (g_check groups weights grad s lam tol)) = length (snd (g_check groups weights grad s lam tol)).
Proof. intros. unfold g_check. cbn [fst snd]. rewrite ranks_of_length, !map_length. reflexivity. Qed.
Lemma gfailing_nth : forall chk labels given grad s lam i, (i < length (g_ids labels))%nat -> nth i (failing_mask chk (g_check labels given grad s lam kkt_tol)) false = true ->
  let g := nth i (g_ids labels) 0%Z in g_active_fails labels given grad s lam kkt_tol g = true \/ 1 + kkt_tol < g_inactive_term labels given grad s lam g.
Proof.
  intros chk labels given grad s lam i Hi H g. rewrite failing_mask_nth in H; [|apply g_check_length|unfold g_check; cbn [snd]; rewrite ranks_of_length, map_length; auto]. cbn [g_check fst snd] in H. apply orb_true_iff in H. destruct H as [H|H].
  - left. apply andb_true_iff in H. destruct H as (_ & H). rewrite (nth_indep _ false (g_active_fails labels given grad s lam kkt_tol 0%Z)) in H by (rewrite map_length; auto). rewrite (map_nth (g_active_fails labels given grad s lam kkt_tol)) in H. exact H.
  - right. match type of H with (if ?c then _ else _) = true => destruct c as [H'|]; [|discriminate] end. apply ranks_of_sign in H'; [|rewrite map_length; auto]. rewrite (nth_indep _ 0 (g_inactive_term labels given grad s lam 0%Z)) in H' by (rewrite map_length; auto). rewrite (map_nth (g_inactive_term labels given grad s lam)) in H'. exact H'.
Qed.
Section Path.
Variables (grad : vec -> vec) (func : vec -> R) (X : transform) (groups : list Z) (given : Z -> option R) (enet : vec) (alpha : R).
Local Notation P := (group_path grad func X groups given enet alpha) (only parsing).
Local Notation B := (gq_base (group_path grad func X groups given enet alpha)) (only parsing).
Local Notation p := (lp_size (gq_base (group_path grad func X groups given enet alpha))) (only parsing).
Local Notation w := (group_weight given groups) (only parsing).
Hypothesis GP : good_path (gq_base (group_path grad func X groups given enet alpha)).
Hypothesis LG : length groups = lp_size (gq_base (group_path grad func X groups given enet alpha)).
Lemma w_nonneg : forall g, In g groups -> 0 <= w g.
Proof.
  intros g Hg. destruct (gp_w _ GP) as (_ & N). unfold nonneg in N. rewrite Forall_forall in N. rewrite <- (weight_at given groups groups g Hg). apply N. cbn [group_path gq_base lp_weights]. change (weight_of (filled given groups) groups) with (group_weight (filled given groups) groups). apply in_map. auto.
Qed.
Definition ggrad (lam : R) (s : vec) : vec := path_gradient B s (t_lin (lp_X B) s) lam.
Lemma exact_gstat : forall lam set b g, 0 < lam -> In g groups -> In g set -> group_solves B groups w lam set b -> gstat (lp_alpha B * lam * w g) (block groups g (ggrad lam (embed p (features groups set) b))) (block groups g (embed p (features groups set) b)).
Proof.
  intros lam set b g Hl Hg Hs (Lb & _ & M). set (vars := features groups set) in *. assert (I : index_set p vars) by (unfold vars; rewrite <- candidates_features, <- LG; apply candidates_index). set (s := embed p vars b) in *. assert (Ls : length s = p) by apply (embed_length B). assert (Al := alpha_lam B GP lam Hl).
  apply (group_first groups (smooth_part B lam)); auto; [rewrite LG; apply (path_gradient_right B GP); auto|congruence|lra|apply w_nonneg|].
  intros d Ld Zd. set (v := vadd s d). assert (Lv : length v = p) by (unfold v, vadd; rewrite <- LG; apply vzip_length2; congruence).
  assert (Ev : embed p vars (gather vars v) = v). { apply (embed_gather B); auto. intros j Nj. destruct (Nat.lt_ge_cases j p) as [Hj|Hj]; [|apply nth_overflow; lia]. assert (N : nth j groups 0%Z <> g). { intros E. apply Nj. unfold vars. rewrite <- candidates_features. apply candidates_In. split; [lia|]. rewrite E. exact Hs. }
    unfold v, vadd. rewrite (nth_zip0 _ _ _ p) by (auto; congruence). replace (nth j s 0) with 0 by (symmetry; apply (embed_outside B); auto). specialize (Zd _ N). replace (nth j d 0) with 0; [ring|]. symmetry. rewrite block_select in Zd by auto. assert (In (nth j d 0) (map (fun i => nth i d 0) (filter (fun i => Z.eqb (nth j groups 0%Z) (nth i groups 0%Z)) (seq 0 (length groups))))). { apply in_map_iff. exists j. split; auto. apply filter_In. split; [apply in_seq; lia|apply Z.eqb_refl]. } rewrite Zd in H. unfold zeros in H. apply repeat_spec in H. exact H. }
  specialize (M (gather vars v)). rewrite Ev in M. apply M. unfold gather. rewrite map_length. reflexivity.
Qed.
(** a failing group is not a candidate *)
Lemma gfailing_outside : forall chk lam set b labels g' s' i, 0 < lam -> group_solves B groups w lam set b -> incl labels groups -> length g' = length labels -> length s' = length labels -> (i < length (g_ids labels))%nat -> let g := nth i (g_ids labels) 0%Z in let s := embed p (features groups set) b in
  block labels g g' = block groups g (ggrad lam s) -> block labels g s' = block groups g s -> nth i (failing_mask chk (g_check labels (filled given groups) g' s' (lp_alpha B * lam) kkt_tol)) false = true -> ~ In g set.
Proof.
  intros chk lam set b labels g' s' i Hl So In_ Lg Ls Hi g s Eg Es F Hg. assert (Hgl : In g labels) by (apply sorted_unique_in, nth_In; auto). assert (Hgg : In g groups) by (apply In_; auto). assert (St := exact_gstat lam set b g Hl Hgg Hg So). fold s in St. rewrite <- Eg, <- Es, <- (weight_at given groups labels g Hgg) in St. assert (Al := alpha_lam B GP lam Hl).
  destruct (gstat_passes labels (filled given groups) g' s' (lp_alpha B * lam) kkt_tol g) as (A1 & A2); auto; [apply kkt_tol_pos|intros h Hh; rewrite weight_at by (apply In_; auto); apply w_nonneg, In_; auto|].
  apply gfailing_nth in F; auto. fold g in F. assert (0 <= kkt_tol) by apply kkt_tol_pos. destruct F as [F|F]; [congruence|lra].
Qed.
Definition gnext (st : gstate) : list Z := zunion (gs_set st) (chosen groups (gs_fail st)).
Definition gmask_ok (st : gstate) : Prop := length (gs_fail st) = length (g_ids groups).
Lemma zunion_nodup : forall a b, NoDup (zunion a b).
Proof. intros. apply sorted_lt_nodup, sorted_unique_sorted. Qed.
Lemma gnext_size : forall st, incl (gs_set st) groups -> (length (gnext st) <= length (g_ids groups))%nat.
Proof. intros st I. apply NoDup_incl_length; [apply zunion_nodup|]. intros g Hg. apply sorted_unique_in. apply zunion_In in Hg. destruct Hg as [Hg|Hg]; [apply I; auto|apply chosen_In in Hg; auto]. Qed.
Lemma strong_length : forall g a b, length (g_strong groups (filled given groups) g a b) = length (g_ids groups).
Proof. intros. unfold g_strong. rewrite map_length. unfold g_terms. apply map_length. Qed.
Lemma full_gather : forall (x : vec), length x = p -> gather (seq 0 p) x = x.
Proof. intros x L. apply (nth_ext _ _ 0 0); [unfold gather; rewrite map_length, seq_length; auto|]. intros j Hj. unfold gather in *. rewrite map_length, seq_length in Hj. rewrite (nth_map_seq R (fun i => nth i x 0)) by auto. reflexivity. Qed.
Lemma gtry_grows : forall S chk lcur lnew st ok sub linpred st1, right_size S -> exact_group_solver B groups w S -> 0 < lnew -> gstate_ok P st -> gmask_ok st -> NoDup (gs_set st) -> gtry P S chk lcur lnew st = Ok (ok, sub, linpred, st1) ->
  gmask_ok st1 /\ (ok = false -> (length (gs_set st1) < length (gnext st1))%nat).
Proof.
  intros S chk lcur lnew st ok sub linpred st1 RS XS Hl OK MO ND E. destruct (gtry_spec P GP LG S chk lcur lnew st ok sub linpred st1 RS OK E) as (OK1 & Es & Eb & Sol & Lin & _). change (gq_groups P) with groups in *.
  assert (I1 : incl (gs_set st1) groups) by apply OK1. assert (So : group_solves B groups w lnew (gs_set st1) sub) by (rewrite Eb, candidates_features; apply XS; auto). assert (L1 : length (gs_sol st1) = p) by apply OK1.
  assert (Gr : forall g, ~ In g (gs_set st1) -> In g (chosen groups (gs_fail st1)) -> (length (gs_set st1) < length (gnext st1))%nat).
  { intros g Ng Hg. assert (H : (length (g :: gs_set st1) <= length (gnext st1))%nat); [|exact H]. apply NoDup_incl_length; [constructor; auto; rewrite Es; apply zunion_nodup|]. intros h [<-|Hh]; apply zunion_In; auto. }
  unfold gtry in E. change (gq_groups P) with groups in *. set (set := zunion (gs_set st) (chosen groups (gs_fail st))) in *. set (vars := candidates groups set) in *. set (b := S (gs_calls st) (gs_sol st) vars lnew) in *. cbv zeta in E.
  set (lp := mat_tvec _ _ b) in *. set (sol := M_affine.scatter vars b (gs_sol st)) in *. change (gq_strong P) with (g_strong groups (filled given groups)) in E. set (strong := g_strong groups (filled given groups) _ _ _) in *. set (svars := candidates groups (chosen groups strong)) in *. cbn [gq_check group_path] in E. cbn [rbind] in E.
  set (sgrad := vadd _ _) in E. set (labels := labels_at groups svars) in E. set (r := g_check labels _ sgrad _ _ _) in E.
  assert (Lstrong : length strong = length (g_ids groups)) by apply strong_length. assert (Ids : g_ids labels = chosen groups strong) by apply chosen_ids.
  assert (Lr : length (failing_mask chk r) = length (chosen groups strong)). { rewrite failing_mask_length by apply g_check_length. unfold r, g_check. cbn [snd]. rewrite ranks_of_length, map_length. congruence. }
  destruct (existsb (fun b0 => b0) (failing_mask chk r)) eqn:Ef.
  - apply Ok_inj in E. injection E as <- <- <- <-. cbn [gs_sol gs_set gs_fail] in *. assert (Lf : length (fill strong (failing_mask chk r)) = length (g_ids groups)) by (rewrite fill_length; auto).
    split; [unfold gmask_ok; cbn [gs_fail]; rewrite mask_or_length; [exact MO|unfold gmask_ok in MO; congruence]|]. intros _. apply existsb_true in Ef. destruct Ef as (i & Hi & Fi). rewrite Lr in Hi. set (g := nth i (chosen groups strong) 0%Z).
    assert (Hg : In g (chosen groups strong)) by (apply nth_In; auto). apply (Gr g).
    + unfold g in *. rewrite <- Ids in Hg, Hi |- *. apply (gfailing_outside chk lnew set b labels sgrad (gather svars sol) i); auto.
      * intros h Hh. apply labels_at_In in Hh. tauto.
      * unfold sgrad, vadd, labels, labels_at. rewrite map_length. apply vzip_length2; [unfold mat_vec, subsample_columns; rewrite !map_length; auto|unfold enet_grad; apply map_length].
      * unfold gather, labels, labels_at. rewrite !map_length. reflexivity.
      * replace sgrad with (gather svars (ggrad lnew (embed p (features groups set) b))).
        -- apply block_gather; [|rewrite <- Ids; exact Hg]. rewrite LG. apply (proj1 (path_gradient_right B GP lnew _ (embed_length B _ _))).
        -- apply (nth_ext _ _ 0 0); [unfold gather, sgrad, vadd; rewrite map_length; symmetry; apply vzip_length2; [unfold mat_vec, subsample_columns; rewrite !map_length; auto|unfold enet_grad; apply map_length]|]. intros k Hk. unfold gather in Hk. rewrite map_length in Hk. unfold sgrad. rewrite (strong_grad_nth B GP); auto.
           ++ unfold gather. rewrite (nth_indep _ 0 ((fun j => nth j (ggrad lnew (embed p (features groups set) b)) 0) 0%nat)) by (rewrite map_length; auto). rewrite (map_nth (fun j => nth j (ggrad lnew (embed p (features groups set) b)) 0)). unfold ggrad, path_gradient. rewrite <- candidates_features. rewrite <- Sol, <- Lin. reflexivity.
           ++ apply (proj1 (gp_grad _ GP lp ltac:(rewrite Lin; apply (lin_len B GP); auto))).
           ++ rewrite <- LG. apply candidates_index.
      * rewrite <- candidates_features. rewrite <- Sol. apply block_gather; [congruence|rewrite <- Ids; exact Hg].
    + apply chosen_or; auto. unfold chosen at 1. rewrite chosen_fill_gen by auto. fold (chosen groups strong). apply in_map_iff. exists (g, true). split; auto. apply filter_In. split; auto. rewrite <- Fi. unfold g. rewrite <- (combine_nth (chosen groups strong) (failing_mask chk r) i 0%Z false) by auto. apply nth_In. rewrite combine_length. lia.
  - assert (LA : labels_at groups (seq 0 (gq_size P)) = groups) by (unfold gq_size; rewrite <- LG; apply labels_all). rewrite LA in E. apply Ok_inj in E. injection E as <- <- <- <-. cbn [gs_sol gs_set gs_fail] in *. set (r' := g_check groups _ _ _ _ _) in *. assert (Lr' : length (failing_mask chk r') = length (g_ids groups)). { rewrite failing_mask_length by apply g_check_length. unfold r', g_check. cbn [snd]. rewrite ranks_of_length, map_length. reflexivity. }
    split; [exact Lr'|]. intros H. apply negb_false_iff in H. apply existsb_true in H. destruct H as (i & Hi & Fi). rewrite Lr' in Hi. apply (Gr (nth i (g_ids groups) 0%Z)); [|apply chosen_nth; congruence].
    apply (gfailing_outside chk lnew set b groups (path_gradient B sol lp lnew) sol i); auto; [apply incl_refl| |congruence| |].
    + rewrite Lin, Sol, LG. apply (proj1 (path_gradient_right B GP lnew _ (embed_length B _ _))).
    + rewrite <- candidates_features. rewrite <- Sol. unfold ggrad. rewrite <- Lin. reflexivity.
    + rewrite <- candidates_features. rewrite <- Sol. reflexivity.
Qed.
Lemma gtries_exact : forall S chk max_tries lcur lnew, right_size S -> exact_group_solver B groups w S -> 0 < lnew -> forall fuel num st pt st', gstate_ok P st -> gmask_ok st -> NoDup (gs_set st) -> (num <= length (gnext st))%nat -> gtries fuel P S chk max_tries lcur lnew num st = Ok (pt, st') ->
  gmask_ok st' /\ NoDup (gs_set st') /\ (gp_tries pt <= length (g_ids groups) + 1)%nat /\ (gp_warned pt = true -> (max_tries <= length (g_ids groups))%nat) /\ group_solves B groups w lnew (gp_set pt) (gp_sub pt).
Proof.
  intros S chk max_tries lcur lnew RS XS Hl. induction fuel as [|fuel IH]; intros num st pt st' OK MO ND Hn E; [discriminate|]. assert (Lp := gnext_size st (proj1 (proj2 OK))). cbn [gtries] in E.
  destruct (gtry P S chk lcur lnew st) as [[[[ok sub] linpred] st1]|e] eqn:T; [|discriminate]. cbn [rbind] in E. destruct (gtry_spec P GP LG _ _ _ _ _ _ _ _ _ RS OK T) as (OK1 & Es & Eb & Sol & Lin & _). change (gq_groups P) with groups in *. destruct (gtry_grows _ _ _ _ _ _ _ _ _ RS XS Hl OK MO ND T) as (MO1 & Gr).
  assert (So : group_solves B groups w lnew (gs_set st1) sub) by (rewrite Eb, candidates_features; apply XS; auto). assert (N1 : NoDup (gs_set st1)) by (rewrite Es; apply zunion_nodup).
  destruct ok.
  - apply Ok_inj in E. injection E as <- <-. cbn [gp_tries gp_warned gp_set gp_sub]. split; auto. split; auto. split; [lia|]. split; [discriminate|auto].
  - specialize (Gr eq_refl). change (gs_set st1 = gnext st) in Es. assert (Lp1 := gnext_size st1 (proj1 (proj2 OK1))). rewrite Es in Gr. set (sol2 := M_affine.scatter (candidates groups (gs_set st1)) sub (zeros (gq_size P))) in *. assert (E2 : sol2 = gs_sol st1) by (rewrite Sol; reflexivity). rewrite E2 in E. clear sol2 E2.
    destruct (Nat.eqb (Datatypes.S num mod 5) 0 && Nat.leb max_tries (Datatypes.S num)) eqn:W.
    + apply andb_true_iff in W as (W1 & W2). apply Nat.leb_le in W2. rewrite W1 in E. apply Ok_inj in E. injection E as <- <-. cbn [gp_tries gp_warned gp_set gp_sub gs_set gs_sol]. split; auto. split; auto. split; [lia|]. split; [intros _; lia|auto].
    + assert (Sz : forall g c, (Datatypes.S num <= length (gnext (mk_gstate (gs_sol st1) g (gs_fail st1) (gnext st1) c)))%nat).
      { intros g c. apply Nat.le_trans with (length (gnext st1)); [lia|]. apply NoDup_incl_length; [apply zunion_nodup|]. intros j Hj. unfold gnext at 1. cbn [gs_set gs_fail]. apply zunion_In. auto. }
      destruct (Nat.eqb (Datatypes.S num mod 5) 0); cbn [gs_sol gs_grad gs_fail gs_set gs_calls] in E; apply IH in E; auto; first [exact MO1|apply (keep_ok P); exact OK1|apply zunion_nodup|apply Sz].
Qed.
Theorem gpath_exact : forall S chk max_tries fuel, right_size S -> exact_group_solver B groups w S -> forall ls lcur st pts, Forall (fun l => 0 < l) ls -> gstate_ok P st -> gmask_ok st -> NoDup (gs_set st) -> grun fuel P S chk max_tries lcur ls st = Ok pts ->
  Forall (fun pt => (gp_tries pt <= length (g_ids groups) + 1)%nat /\ (gp_warned pt = true -> (max_tries <= length (g_ids groups))%nat) /\ group_solves B groups w (gp_lagrange pt) (gp_set pt) (gp_sub pt)) pts.
Proof.
  intros S chk max_tries fuel RS XS. induction ls as [|l ls IH]; intros lcur st pts Pl OK MO ND E; cbn [grun] in E; [apply Ok_inj in E; subst; constructor|].
  apply Forall_inv in Pl as Pl0. apply Forall_inv_tail in Pl.
  destruct (gtries fuel P S chk max_tries lcur l 0 st) as [[pt st']|e] eqn:T; [|discriminate]. cbn [rbind fst snd] in E. destruct (grun fuel P S chk max_tries l ls st') as [pts'|e] eqn:E'; [|discriminate]. cbn [rbind] in E. apply Ok_inj in E. subst pts.
  destruct (gtries_spec P GP LG _ _ _ _ _ _ _ _ _ _ RS OK T) as (OK' & El & _). destruct (gtries_exact S chk max_tries lcur l RS XS Pl0 fuel 0 st pt st' OK MO ND ltac:(lia) T) as (MO' & ND' & A). constructor; [rewrite El; auto|]. apply (IH l st'); auto.
Qed.
(** ** the solution is nearly optimal *)
Theorem gnearly_optimal : forall lam set b v, 0 < lam -> group_solves B groups w lam set b -> (forall g, In g groups -> ~ In g set -> 0 < w g) -> let s := embed p (features groups set) b in
  inactive_passes (g_check groups (filled given groups) (ggrad lam s) s (lp_alpha B * lam) kkt_tol) -> length v = p ->
  gpath_objective B groups w lam s <= gpath_objective B groups w lam v + kkt_tol * (lp_alpha B * lam * group_penalty groups w v).
Proof.
  intros lam set b v Hl So Pw s C Lv. assert (Ls : length s = p) by apply (embed_length B). assert (Al := alpha_lam B GP lam Hl). set (al := lp_alpha B * lam) in *.
  assert (G := path_gradient_right B GP lam s Ls). fold (ggrad lam s) in G. assert (T := convex_tangent p (smooth_part B lam) s (ggrad lam s) v (smooth_convex B GP lam ltac:(lra)) G Ls Lv). destruct G as (Lg & _).
  assert (Lvs : length (vsub v s) = p) by (unfold vsub; apply vzip_length2; auto). rewrite (dot_blocks groups) in T by congruence. unfold gpath_objective, group_objective. fold al.
  unfold inactive_passes, g_check in C. cbn [snd] in C. apply ranks_of_neg in C. rewrite Forall_forall in C.
  assert (K : al * group_penalty groups w s <= al * group_penalty groups w v + vsum (map (fun h => dot (block groups h (ggrad lam s)) (block groups h (vsub v s))) (distinct groups)) + kkt_tol * (al * group_penalty groups w v)).
  { unfold group_penalty. rewrite <- !vsum_map_scal, <- !vsum_map_add. apply vsum_map_le. intros h Hh. unfold distinct in Hh. apply -> (nodup_In Z.eq_dec) in Hh. rewrite vsub_block by congruence. assert (W := w_nonneg h Hh). assert (Av := norm_nonneg (block groups h v)). assert (0 <= kkt_tol) by apply kkt_tol_pos. assert (AW : 0 <= al * (w h * norm (block groups h v))) by (apply Rmult_le_pos; [lra|apply Rmult_le_pos; auto]). assert (Lb : length (block groups h v) = length (block groups h s)) by (apply block_length; congruence). assert (Lbg : length (block groups h (ggrad lam s)) = length (block groups h s)) by (apply block_length; congruence).
    destruct (in_dec Z.eq_dec h set) as [Hs|Ns].
    - assert (St := exact_gstat lam set b h Hl Hh Hs So). fold s al in St. specialize (St (vsub (block groups h v) (block groups h s)) ltac:(unfold vsub; apply vzip_length2; auto)). rewrite vadd_vsub in St by congruence. assert (0 <= kkt_tol * (al * (w h * norm (block groups h v)))) by (apply Rmult_le_pos; auto). lra.
    - assert (Z : norm (block groups h s) = 0). { replace (block groups h s) with (zeros (length (block groups h s))); [apply norm_zeros|]. symmetry. rewrite block_select by congruence. rewrite map_length. set (l := filter _ _). assert (F : forall j, In j l -> nth j s 0 = 0). { intros j Hj. apply filter_In in Hj. destruct Hj as (Hj & Ej). apply Z.eqb_eq in Ej. apply (embed_outside B). intros Hv. rewrite <- candidates_features in Hv. apply candidates_In in Hv. destruct Hv as (_ & Hv). rewrite <- Ej in Hv. contradiction. } clearbody l. clear - F. induction l as [|j l IH]; auto. unfold zeros in *. cbn [map length repeat]. rewrite F by (left; auto). f_equal. apply IH. intros; apply F; right; auto. }
      specialize (Pw h Hh Ns). specialize (C (g_inactive_term groups (filled given groups) (ggrad lam s) s al h) ltac:(apply in_map, sorted_unique_in; auto)). unfold g_inactive_term in C. change (weight_of (filled given groups) groups h) with (group_weight (filled given groups) groups h) in C. rewrite weight_at, !zpick_block in C by auto.
      destruct (g_active (w h) (block groups h s)) eqn:Ac; [apply active_true in Ac; destruct Ac; contradiction|]. replace (is0 (w h)) with false in C by (symmetry; apply is0_false; lra). assert (Pc : 0 < al * w h) by (apply Rmult_lt_0_compat; auto). apply (Rmult_le_compat_r (al * w h)) in C; [|lra]. unfold Rdiv in C. rewrite Rmult_assoc, Rinv_l in C by lra.
      assert (Bd := group_sound_bound (al * w h) (block groups h (ggrad lam s)) (block groups h s) (block groups h v) (kkt_tol * (al * w h)) Lbg Lb ltac:(lra) Z ltac:(lra)). replace (norm (vsub (block groups h v) (block groups h s))) with (norm (block groups h v)) in Bd; [lra|]. f_equal. apply norm_eq_zero in Z. rewrite Z. clear - Lb. symmetry. revert Lb. generalize (block groups h s). generalize (block groups h v). intros u z L. rewrite <- L. clear L z. induction u as [|a u IH]; auto. unfold vsub, zeros in *. cbn [length repeat vzip]. rewrite IH. f_equal. ring. }
  lra.
Qed.
(** what an accepted point satisfies *)
Lemma gaccepted_passes : forall chk pt, gaccepted P chk pt -> inactive_passes (g_check groups (filled given groups) (ggrad (gp_lagrange pt) (gp_beta pt)) (gp_beta pt) (lp_alpha B * gp_lagrange pt) kkt_tol) /\
  (chk = true -> passes (g_check groups (filled given groups) (ggrad (gp_lagrange pt) (gp_beta pt)) (gp_beta pt) (lp_alpha B * gp_lagrange pt) kkt_tol)).
Proof.
  intros chk pt (r & E & H). cbn [gq_check group_path] in E. apply Ok_inj in E. rewrite <- LG, labels_all in E. subst r. apply (gnone_failing chk); auto. apply g_check_length.
Qed.
End Path.
