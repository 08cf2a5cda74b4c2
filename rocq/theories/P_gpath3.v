(** Strong rules on group paths. *)
From Coq Require Import Reals List Lra Lia Arith Bool ZArith Permutation Sorted.
From Verif Require Import M_affine SpecAffine P_affine P_affine2 M_loss SpecLoss SpecSmooth P_smooth Vec Spec SpecConvex M_quad M_prox M_semi M_weighted P_quad P_calc P_sep P_feas M_problem M_cv SpecCv P_cv M_path SpecPath P_path P_path2 P_path3 P_path4
  SpecPart SpecGroup M_mixed M_group SpecGatom P_part P_mixed P_kinds P_group P_sgl5 M_gpath SpecGpath P_gpath.
From Verif Require P_buffer P_separable.
Import ListNotations.
Local Open Scope R_scope.

(** ** groups and features *)
Lemma zmem_In : forall g l, zmem g l = true <-> In g l.
Proof. intros g l. unfold zmem. rewrite existsb_exists. split; [intros (h & Hh & E); apply Z.eqb_eq in E; congruence|intros H; exists g; split; auto; apply Z.eqb_refl]. Qed.
Lemma candidates_In : forall groups set j, In j (candidates groups set) <-> (j < length groups)%nat /\ In (nth j groups 0%Z) set.
Proof. intros groups set j. unfold candidates. rewrite filter_In, in_seq, zmem_In. intuition lia. Qed.
Lemma candidates_features : forall groups set, candidates groups set = features groups set.
Proof.
  intros groups set. unfold candidates, features. apply filter_ext. intros j. destruct (in_dec Z.eq_dec (nth j groups 0%Z) set) as [H|H]; [apply zmem_In; auto|]. destruct (zmem (nth j groups 0%Z) set) eqn:E; auto. exfalso. apply H, zmem_In, E.
Qed.
Lemma candidates_index : forall groups set, index_set (length groups) (candidates groups set).
Proof. intros groups set. split; [apply NoDup_filter, seq_NoDup|]. apply Forall_forall. intros j Hj. apply candidates_In in Hj. tauto. Qed.
Lemma chosen_In : forall groups mask g, In g (chosen groups mask) -> In g groups.
Proof. intros groups mask g H. unfold chosen in H. apply in_map_iff in H. destruct H as ((h & b) & <- & H). apply filter_In in H. destruct H as (H & _). apply in_combine_l in H. apply sorted_unique_in. exact H. Qed.
Lemma chosen_nth : forall groups mask i, length mask = length (g_ids groups) -> (i < length mask)%nat -> nth i mask false = true -> In (nth i (g_ids groups) 0%Z) (chosen groups mask).
Proof.
  intros groups mask i L Hi H. unfold chosen. apply in_map_iff. exists (nth i (g_ids groups) 0%Z, true). split; auto. apply filter_In. split; auto. rewrite <- H. rewrite <- (combine_nth (g_ids groups) mask i 0%Z false) by auto. apply nth_In. rewrite combine_length. lia.
Qed.
Lemma zunion_In : forall a b g, In g (zunion a b) <-> In g a \/ In g b.
Proof. intros a b g. unfold zunion. rewrite sorted_unique_in, in_app_iff. tauto. Qed.
Lemma labels_all : forall groups, labels_at groups (seq 0 (length groups)) = groups.
Proof. intros groups. unfold labels_at. apply (nth_ext _ _ 0%Z 0%Z); [rewrite map_length, seq_length; auto|]. intros j Hj. rewrite map_length, seq_length in Hj. rewrite (nth_map_seq Z (fun j => nth j groups 0%Z)) by auto. reflexivity. Qed.
Lemma block_select : forall groups g (x : vec), length x = length groups -> block groups g x = map (fun j => nth j x 0) (filter (fun j => Z.eqb g (nth j groups 0%Z)) (seq 0 (length groups))).
Proof.
  intros groups g. induction groups as [|l groups IH]; intros [|a x] L; try discriminate; auto. rewrite block_cons. cbn [length seq filter]. change (nth 0 (l :: groups) 0%Z) with l. rewrite <- seq_shift.
  assert (E : forall s, map (fun j => nth j (a :: x) 0) (filter (fun j => Z.eqb g (nth j (l :: groups) 0%Z)) (map S s)) = map (fun j => nth j x 0) (filter (fun j => Z.eqb g (nth j groups 0%Z)) s)).
  { induction s as [|j s IHs]; auto. cbn [map filter]. change (nth (S j) (l :: groups) 0%Z) with (nth j groups 0%Z). destruct (Z.eqb g (nth j groups 0%Z)); cbn [map]; rewrite IHs; auto. }
  rewrite IH by (cbn in L; congruence). destruct (Z.eqb g l); cbn [map]; rewrite E; auto.
Qed.
Lemma block_labels_at : forall groups g vars (x : vec), block (labels_at groups vars) g (gather vars x) = map (fun j => nth j x 0) (filter (fun j => Z.eqb g (nth j groups 0%Z)) vars).
Proof. intros groups g vars x. induction vars as [|j vars IH]; auto. cbn [labels_at gather map]. rewrite block_cons. cbn [filter]. unfold labels_at, gather in IH. rewrite IH. destruct (Z.eqb g (nth j groups 0%Z)); auto. Qed.
Lemma block_gather : forall groups set g (x : vec), length x = length groups -> In g set -> block (labels_at groups (candidates groups set)) g (gather (candidates groups set) x) = block groups g x.
Proof.
  intros groups set g x L Hg. rewrite block_labels_at, block_select by auto. f_equal. unfold candidates. induction (seq 0 (length groups)) as [|j s IH]; auto. cbn [filter]. destruct (zmem (nth j groups 0%Z) set) eqn:E; cbn [filter]; rewrite IH; auto.
  destruct (Z.eqb_spec g (nth j groups 0%Z)) as [->|]; auto. apply zmem_In in Hg. congruence.
Qed.
Lemma sorted_same : forall l m : list Z, StronglySorted Z.lt l -> StronglySorted Z.lt m -> (forall g, In g l <-> In g m) -> l = m.
Proof.
  induction l as [|a l IH]; intros [|b m] Hl Hm E; auto; [exfalso; destruct (proj2 (E b) (or_introl eq_refl))|exfalso; destruct (proj1 (E a) (or_introl eq_refl))|].
  inversion Hl as [|? ? Hl1 Hl2]; subst. inversion Hm as [|? ? Hm1 Hm2]; subst. rewrite Forall_forall in Hl2, Hm2.
  assert (a = b). { destruct (proj1 (E a) (or_introl eq_refl)) as [->|Ha]; auto. destruct (proj2 (E b) (or_introl eq_refl)) as [->|Hb]; auto. specialize (Hl2 b Hb). specialize (Hm2 a Ha). lia. }
  subst b. f_equal. apply IH; auto. intros g. split; intros Hg.
  - destruct (proj1 (E g) (or_intror Hg)) as [<-|]; auto. specialize (Hl2 a Hg). lia.
  - destruct (proj2 (E g) (or_intror Hg)) as [<-|]; auto. specialize (Hm2 a Hg). lia.
Qed.
Lemma sorted_sub : forall (l : list Z) mask, StronglySorted Z.lt l -> StronglySorted Z.lt (map fst (filter snd (combine l mask))).
Proof.
  induction l as [|a l IH]; intros [|b mask] H; try constructor. inversion H as [|? ? H1 H2]; subst. cbn [combine filter snd]. destruct b; cbn [map fst]; [|apply IH; auto]. constructor; [apply IH; auto|]. rewrite Forall_forall in *. intros g Hg. apply in_map_iff in Hg. destruct Hg as ((h & c) & <- & Hg). apply filter_In in Hg. destruct Hg as (Hg & _). apply in_combine_l in Hg. auto.
Qed.
Lemma chosen_ids : forall groups mask, g_ids (labels_at groups (candidates groups (chosen groups mask))) = chosen groups mask.
Proof.
  intros groups mask. apply sorted_same; [apply sorted_unique_sorted|apply sorted_sub, sorted_unique_sorted|]. intros g. unfold g_ids. rewrite sorted_unique_in. split.
  - intros H. apply in_map_iff in H. destruct H as (j & <- & Hj). apply candidates_In in Hj. tauto.
  - intros H. assert (H' := chosen_In _ _ _ H). destruct (In_nth _ _ 0%Z H') as (j & Hj & Ej). apply in_map_iff. exists j. split; auto. apply candidates_In. rewrite Ej. auto.
Qed.
Lemma labels_at_In : forall groups set g, In g (labels_at groups (candidates groups set)) -> In g groups /\ In g set.
Proof. intros groups set g H. apply in_map_iff in H. destruct H as (j & <- & Hj). apply candidates_In in Hj. destruct Hj. split; auto. apply nth_In. auto. Qed.
Lemma fill_length : forall mask values, length (fill mask values) = length mask.
Proof. induction mask as [|[] mask IH]; intros values; cbn; auto. Qed.
Lemma chosen_fill_gen : forall (l : list Z) mask values, length mask = length l -> length values = length (map fst (filter snd (combine l mask))) -> map fst (filter snd (combine l (fill mask values))) = map fst (filter snd (combine (map fst (filter snd (combine l mask))) values)).
Proof.
  induction l as [|g l IH]; intros [|b mask] values L Lv; try discriminate; auto. cbn [combine filter snd fill] in *. destruct b; cbn [map fst filter snd combine] in *.
  - destruct values as [|v values]; [discriminate|]. cbn [hd tl combine filter snd]. cbn [length] in L, Lv. destruct v; cbn [map fst]; rewrite IH; auto.
  - apply IH; auto.
Qed.
Lemma mask_or_length : forall a b, length a = length b -> length (mask_or a b) = length a.
Proof. intros a b L. unfold mask_or. rewrite map_length, combine_length. lia. Qed.
Lemma mask_or_nth : forall a b i, length a = length b -> nth i (mask_or a b) false = nth i a false || nth i b false.
Proof. induction a as [|x a IH]; intros [|y b] [|i] L; try discriminate; auto. unfold mask_or in *. cbn [combine map nth fst snd]. apply IH. cbn in L. congruence. Qed.
Lemma chosen_or : forall groups a b g, length a = length (g_ids groups) -> length b = length (g_ids groups) -> In g (chosen groups b) -> In g (chosen groups (mask_or a b)).
Proof.
  intros groups a b g La Lb H. unfold chosen in H. apply in_map_iff in H. destruct H as ((h & c) & Eg & H). cbn [fst] in Eg. subst h. apply filter_In in H. destruct H as (H & Ec). cbn [snd] in Ec. subst c. destruct (In_nth _ _ (0%Z, false) H) as (i & Hi & Ei). rewrite combine_length in Hi. rewrite combine_nth in Ei by auto. injection Ei as E1 E2. rewrite <- E1. apply chosen_nth; [rewrite mask_or_length; congruence|rewrite mask_or_length; lia|]. rewrite mask_or_nth by lia. rewrite E2. apply orb_true_r.
Qed.
Lemma failing_mask_length : forall chk (r : list bool * vec), length (fst r) = length (snd r) -> length (failing_mask chk r) = length (snd r).
Proof. intros chk r L. unfold failing_mask. rewrite map_length, combine_length, L. apply Nat.min_id. Qed.
Lemma failing_mask_nth : forall chk (r : list bool * vec) i, length (fst r) = length (snd r) -> (i < length (snd r))%nat -> nth i (failing_mask chk r) false = (chk && nth i (fst r) false) || (if Rle_dec 0 (nth i (snd r) 0) then true else false).
Proof.
  intros chk r i L Hi. unfold failing_mask. set (F := fun p : bool * R => _). rewrite (nth_indep _ false (F (false, 0))) by (rewrite map_length, combine_length, L, Nat.min_id; auto). rewrite (map_nth F), combine_nth by auto. reflexivity.
Qed.
Lemma gnone_failing : forall chk (r : list bool * vec), length (fst r) = length (snd r) -> existsb (fun b => b) (failing_mask chk r) = false -> inactive_passes r /\ (chk = true -> passes r).
Proof.
  intros chk r L H. rewrite existsb_false in H. assert (A : forall j, (j < length (snd r))%nat -> (chk = true -> nth j (fst r) false = false) /\ nth j (snd r) 0 < 0).
  { intros j Hj. specialize (H j). rewrite failing_mask_length, failing_mask_nth in H by auto. specialize (H Hj). apply orb_false_iff in H as (H1 & H2). split; [intros ->; exact H1|]. destruct (Rle_dec 0 (nth j (snd r) 0)); [discriminate|lra]. }
  assert (B : inactive_passes r). { unfold inactive_passes. apply Forall_forall. intros a Ha. destruct (In_nth _ _ 0 Ha) as (j & Hj & <-). apply A; auto. }
  split; auto. intros Hc. split; auto. apply Forall_forall. intros b Hb. destruct (In_nth _ _ false Hb) as (j & Hj & <-). apply A; auto. rewrite <- L. auto.
Qed.

(** ** any path object *)
Section Path.
Variable P : gpath.
Local Notation B := (gq_base P) (only parsing).
Local Notation p := (lp_size (gq_base P)) (only parsing).
Local Notation groups := (gq_groups P) (only parsing).
Hypothesis GP : good_path (gq_base P).
Hypothesis LG : length (gq_groups P) = lp_size (gq_base P).
Lemma cand_index : forall set, index_set p (candidates groups set).
Proof. intros set. rewrite <- LG. apply candidates_index. Qed.
Definition gstate_ok (st : gstate) : Prop := length (gs_sol st) = p /\ incl (gs_set st) groups /\ forall j, ~ In j (candidates groups (gs_set st)) -> nth j (gs_sol st) 0 = 0.
Lemma gstart_ok : forall g, gstate_ok (gstart P (zeros p) g).
Proof. intros g. split; [apply repeat_length|]. split; [intros x []|]. intros j _. apply nth_repeat. Qed.
Definition gat_solution (lnew : R) (st : gstate) : vec := path_gradient B (gs_sol st) (t_lin (lp_X B) (gs_sol st)) lnew.
Lemma more_candidates : forall a b j, ~ In j (candidates groups (zunion a b)) -> ~ In j (candidates groups a).
Proof. intros a b j N H. apply N. apply candidates_In in H. apply candidates_In. rewrite zunion_In. tauto. Qed.
Lemma gtry_spec : forall S chk lcur lnew st ok sub linpred st1, right_size S -> gstate_ok st -> gtry P S chk lcur lnew st = Ok (ok, sub, linpred, st1) ->
  gstate_ok st1 /\ gs_set st1 = zunion (gs_set st) (chosen groups (gs_fail st)) /\ sub = S (gs_calls st) (gs_sol st) (candidates groups (gs_set st1)) lnew /\ gs_sol st1 = embed p (candidates groups (gs_set st1)) sub /\ linpred = t_lin (lp_X B) (gs_sol st1) /\
  (ok = true -> exists r, gq_check P (seq 0 p) (gat_solution lnew st1) (gs_sol st1) (lp_alpha B * lnew) = Ok r /\ existsb (fun b => b) (failing_mask chk r) = false).
Proof.
  intros S chk lcur lnew st ok sub linpred st1 RS (Lx & I & Z) E. unfold gtry in E. set (set := zunion (gs_set st) (chosen groups (gs_fail st))) in *. set (vars := candidates groups set) in *. set (b := S (gs_calls st) (gs_sol st) vars lnew) in *.
  assert (Lb : length b = length vars) by apply RS. assert (Is : index_set p vars) by apply cand_index.
  assert (Sol : M_affine.scatter vars b (gs_sol st) = embed p vars b). { apply (scatter_embed B); auto. intros j Nj. apply Z. apply (more_candidates _ (chosen groups (gs_fail st))). exact Nj. }
  assert (Lin := lin_embed B GP vars b Is Lb). cbv zeta in E. rewrite Sol, Lin in E. set (sol := embed p vars b) in *.
  assert (OK1 : forall g f c, gstate_ok (mk_gstate sol g f set c)). { intros g f c. split; [apply (embed_length B)|]. split; [|intros j Nj; apply (embed_outside B); exact Nj]. intros g' Hg. cbn [gs_set] in Hg. apply zunion_In in Hg. destruct Hg as [Hg|Hg]; [apply I; auto|apply chosen_In in Hg; auto]. }
  match type of E with rbind ?c _ = _ => destruct c as [r|e]; [|discriminate] end. cbn [rbind] in E.
  destruct (existsb (fun b0 => b0) (failing_mask chk r)) eqn:Ef.
  - apply Ok_inj in E. injection E as <- <- <- <-. cbn [gs_sol gs_set gs_calls]. split; [apply OK1|]. repeat split; auto. discriminate.
  - change (gq_size P) with p in E. destruct (gq_check P (seq 0 p) (path_gradient B sol (t_lin (lp_X B) sol) lnew) sol (lp_alpha B * lnew)) as [r'|e] eqn:Ec; [|discriminate]. cbn [rbind] in E. apply Ok_inj in E. injection E as <- <- <- <-. cbn [gs_sol gs_set gs_calls]. split; [apply OK1|]. repeat split; auto. intros H. apply negb_true_iff in H. exists r'. split; auto.
Qed.
Definition gaccepted (chk : bool) (pt : gpoint) : Prop := exists r, gq_check P (seq 0 p) (path_gradient B (gp_beta pt) (t_lin (lp_X B) (gp_beta pt)) (gp_lagrange pt)) (gp_beta pt) (lp_alpha B * gp_lagrange pt) = Ok r /\ existsb (fun b => b) (failing_mask chk r) = false.
Lemma keep_ok : forall st1 g c, gstate_ok st1 -> gstate_ok (mk_gstate (gs_sol st1) g (gs_fail st1) (zunion (gs_set st1) (chosen groups (gs_fail st1))) c).
Proof.
  intros st1 g c (L1 & I1 & Z1). split; auto. split.
  - intros h Hh. cbn [gs_set] in Hh. apply zunion_In in Hh. destruct Hh as [Hh|Hh]; [apply I1; auto|apply chosen_In in Hh; auto].
  - intros j Nj. apply Z1. apply (more_candidates _ (chosen groups (gs_fail st1))). exact Nj.
Qed.
Lemma gtries_spec : forall S chk max_tries lcur lnew fuel num st pt st', right_size S -> gstate_ok st -> gtries fuel P S chk max_tries lcur lnew num st = Ok (pt, st') ->
  gstate_ok st' /\ gp_lagrange pt = lnew /\ group_restricted P S pt /\ (num < gp_tries pt)%nat /\ (gp_warned pt = false -> gaccepted chk pt) /\ (gp_warned pt = true -> (max_tries <= gp_tries pt)%nat).
Proof.
  intros S chk max_tries lcur lnew. induction fuel as [|fuel IH]; intros num st pt st' RS OK E; [discriminate|]. cbn [gtries] in E.
  destruct (gtry P S chk lcur lnew st) as [[[[ok sub] linpred] st1]|e] eqn:T; [|discriminate]. cbn [rbind] in E. destruct (gtry_spec _ _ _ _ _ _ _ _ _ RS OK T) as (OK1 & Es & Eb & Sol & Lin & Pass). assert (OK1' := OK1). destruct OK1' as (L1 & I1 & Z1).
  assert (R1 : forall w t, group_restricted P S (mk_gpoint lnew (gs_sol st1) w (gs_set st1) sub t)). { intros w t. split; [exact I1|]. cbn [gp_beta gp_set gp_sub gp_lagrange]. rewrite <- candidates_features. split; [exact Sol|]. exists (gs_calls st), (gs_sol st). exact Eb. }
  destruct ok.
  - apply Ok_inj in E. injection E as <- <-. cbn [gp_lagrange gp_tries gp_warned gp_beta]. split; auto. split; auto. split; auto. split; [lia|]. split; [|discriminate]. intros _. exact (Pass eq_refl).
  - set (sol2 := M_affine.scatter (candidates groups (gs_set st1)) sub (zeros (gq_size P))) in *. assert (E2 : sol2 = gs_sol st1) by (rewrite Sol; reflexivity). rewrite E2 in E. clear sol2 E2.
    destruct (Nat.eqb (Datatypes.S num mod 5) 0 && Nat.leb max_tries (Datatypes.S num)) eqn:W.
    + apply andb_true_iff in W as (W1 & W2). rewrite W1 in E. apply Ok_inj in E. injection E as <- <-. cbn [gs_sol gs_set gp_lagrange gp_tries gp_warned gp_beta]. split; [split; auto|]. split; auto. split; auto. split; [lia|]. split; [discriminate|]. intros _. apply Nat.leb_le. auto.
    + apply IH in E; auto; [intuition lia|]. destruct (Nat.eqb (Datatypes.S num mod 5) 0); cbn [gs_sol gs_set gs_fail]; apply keep_ok; auto.
Qed.
Theorem gpath_spec : forall S chk max_tries fuel ls lcur st pts, right_size S -> gstate_ok st -> grun fuel P S chk max_tries lcur ls st = Ok pts ->
  map gp_lagrange pts = ls /\ Forall (fun pt => group_restricted P S pt /\ (gp_warned pt = false -> gaccepted chk pt) /\ (gp_warned pt = true -> (max_tries <= gp_tries pt)%nat)) pts.
Proof.
  intros S chk max_tries fuel. induction ls as [|l ls IH]; intros lcur st pts RS OK E; cbn [grun] in E; [apply Ok_inj in E; subst; split; constructor|].
  destruct (gtries fuel P S chk max_tries lcur l 0 st) as [[pt st']|e] eqn:T; [|discriminate]. cbn [rbind fst snd] in E. destruct (grun fuel P S chk max_tries l ls st') as [pts'|e] eqn:E'; [|discriminate]. cbn [rbind] in E. apply Ok_inj in E. subst pts.
  destruct (gtries_spec _ _ _ _ _ _ _ _ _ _ RS OK T) as (OK' & El & Rp & _ & Acc & Wn). destruct (IH _ _ _ RS OK' E') as (A & C). split; [cbn [map]; rewrite El, A; auto|]. constructor; auto.
Qed.
End Path.
(** it ends when the checks do not raise *)
Section Ends.
Variable P : gpath.
Hypothesis Safe : forall vars g s lam, exists r, gq_check P vars g s lam = Ok r.
Lemma gtry_ok : forall S chk lcur lnew st, exists r, gtry P S chk lcur lnew st = Ok r.
Proof.
  intros S chk lcur lnew st. unfold gtry. match goal with |- exists _, rbind (gq_check P ?a ?b ?c ?d) _ = _ => destruct (Safe a b c d) as (r & E) end. rewrite E. cbn [rbind]. destruct (existsb _ _); [eexists; reflexivity|].
  match goal with |- exists _, rbind (gq_check P ?a ?b ?c ?d) _ = _ => destruct (Safe a b c d) as (r' & E') end. rewrite E'. cbn [rbind]. eexists. reflexivity.
Qed.
Lemma gtries_ends : forall S chk max_tries lcur lnew fuel num st, (num < bound max_tries <= num + fuel)%nat -> exists pt st', gtries fuel P S chk max_tries lcur lnew num st = Ok (pt, st') /\ (gp_tries pt <= bound max_tries)%nat.
Proof.
  intros S chk max_tries lcur lnew. induction fuel as [|fuel IH]; intros num st H; [lia|]. cbn [gtries]. destruct (gtry_ok S chk lcur lnew st) as ([[[ok sub] linpred] st1] & E). rewrite E. cbn [rbind]. destruct ok; [eexists; eexists; split; [reflexivity|cbn [gp_tries]; lia]|].
  destruct (Nat.eqb (Datatypes.S num mod 5) 0 && Nat.leb max_tries (Datatypes.S num)) eqn:W; [eexists; eexists; split; [reflexivity|cbn [gp_tries]; lia]|].
  apply IH. split; [|lia]. destruct (Nat.eq_dec (Datatypes.S num) (bound max_tries)) as [Eb|N]; [|lia]. exfalso. apply andb_false_iff in W as [W|W].
  - apply Nat.eqb_neq in W. apply W. rewrite Eb. unfold bound. rewrite Nat.mul_comm. apply Nat.mod_mul. lia.
  - apply Nat.leb_gt in W. assert (X := bound_le max_tries). lia.
Qed.
Theorem gpath_ends : forall S chk max_tries fuel ls lcur st, (bound max_tries <= fuel)%nat -> exists pts, grun fuel P S chk max_tries lcur ls st = Ok pts /\ Forall (fun pt => (gp_tries pt <= bound max_tries)%nat) pts.
Proof.
  intros S chk max_tries fuel. induction ls as [|l ls IH]; intros lcur st H; cbn [grun]; [eexists; split; [reflexivity|constructor]|].
  destruct (gtries_ends S chk max_tries lcur l fuel 0 st) as (pt & st' & T & X); [assert (X := bound_le max_tries); lia|]. rewrite T. cbn [rbind fst snd]. destruct (IH l st' H) as (pts & -> & F). eexists. split; [reflexivity|constructor; auto].
Qed.
End Ends.
