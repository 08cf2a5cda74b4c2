(** Group lasso paths: groups without weight, and a path of one group of two features. *)
From Coq Require Import Reals List Lra Lia Arith Bool ZArith Permutation Sorted.
From Verif Require Import M_affine SpecAffine P_affine P_affine2 M_loss SpecLoss SpecSmooth P_smooth Vec Spec SpecConvex M_quad M_prox M_semi M_weighted P_quad P_calc P_sep P_feas M_problem M_cv SpecCv P_cv M_path SpecPath P_path P_path2 P_path3 P_path4 P_path6
  SpecPart SpecGroup M_mixed M_group SpecGatom P_part P_mixed P_kinds P_group P_sgl5 M_gpath SpecGpath P_gpath P_gpath2 P_gpath3 P_gpath4.
From Verif Require P_buffer P_separable.
Import ListNotations.
Local Open Scope R_scope.

Section Free.
Variables (grad : vec -> vec) (func : vec -> R) (X : transform) (groups : list Z) (given : Z -> option R) (enet : vec) (alpha : R).
Local Notation P := (group_path grad func X groups given enet alpha) (only parsing).
Local Notation w := (group_weight given groups) (only parsing).
Definition gno_free (st : gstate) : Prop := (forall g, In g (gs_set st) -> w g <> 0) /\ forall g, In g (chosen groups (gs_fail st)) -> w g <> 0.
Lemma chosen_exists : forall mask g, In g (chosen groups mask) -> exists i, (i < length (g_ids groups))%nat /\ (i < length mask)%nat /\ nth i (g_ids groups) 0%Z = g /\ nth i mask false = true.
Proof.
  intros mask g H. unfold chosen in H. apply in_map_iff in H. destruct H as ((h & c) & Eg & H). cbn [fst] in Eg. subst h. apply filter_In in H. destruct H as (H & Ec). cbn [snd] in Ec. subst c. assert (H' := H). apply in_combine_l in H'.
  revert H. generalize (g_ids groups) as l. clear H'. intros l. revert mask. induction l as [|h l IH]; intros [|b mask] H; try destruct H.
  - injection H as -> ->. exists 0%nat. cbn. repeat split; auto; lia.
  - destruct (IH _ H) as (i & A & B & C & D). exists (Datatypes.S i). cbn. repeat split; auto; lia.
Qed.
Lemma gfailing_penalized : forall labels g' s' lam i, incl labels groups -> (i < length (g_ids labels))%nat -> nth i (failing_mask false (g_check labels (filled given groups) g' s' lam kkt_tol)) false = true -> w (nth i (g_ids labels) 0%Z) <> 0.
Proof.
  intros labels g' s' lam i I Hi H Z. rewrite failing_mask_nth in H; [|apply g_check_length|unfold g_check; cbn [snd]; rewrite ranks_of_length, map_length; auto]. cbn [g_check snd andb orb] in H. match type of H with (if ?c then _ else _) = true => destruct c as [H'|]; [|discriminate] end. apply ranks_of_sign in H'; [|rewrite map_length; auto].
  rewrite (nth_indep _ 0 (g_inactive_term labels (filled given groups) g' s' lam 0%Z)) in H' by (rewrite map_length; auto). rewrite (map_nth (g_inactive_term labels (filled given groups) g' s' lam)) in H'. set (g := nth i (g_ids labels) 0%Z) in *. assert (Hg : In g groups) by (apply I, sorted_unique_in, nth_In; auto). unfold g_inactive_term in H'. change (weight_of (filled given groups) labels g) with (group_weight (filled given groups) labels g) in H'. rewrite weight_at, Z in H' by auto. replace (is0 0) with true in H' by (symmetry; apply is0_true; auto). unfold kkt_tol in H'. destruct (g_active 0 _); lra.
Qed.
Lemma gnext_penalized : forall st, gno_free st -> forall g, In g (zunion (gs_set st) (chosen groups (gs_fail st))) -> w g <> 0.
Proof. intros st (A & B) g Hg. apply zunion_In in Hg. destruct Hg; auto. Qed.
Lemma gtry_penalized : forall S lcur lnew st ok sub linpred st1, length groups = gq_size P -> gno_free st -> gtry P S false lcur lnew st = Ok (ok, sub, linpred, st1) -> gno_free st1.
Proof.
  intros S lcur lnew st ok sub linpred st1 LG NF E. assert (N := gnext_penalized st NF). unfold gtry in E. change (gq_groups P) with groups in *. set (set := zunion (gs_set st) (chosen groups (gs_fail st))) in *. set (vars := candidates groups set) in *. set (b := S (gs_calls st) (gs_sol st) vars lnew) in *. cbv zeta in E.
  set (lp := mat_tvec _ _ b) in *. set (sol := M_affine.scatter vars b (gs_sol st)) in *. change (gq_strong P) with (g_strong groups (filled given groups)) in E. set (strong := g_strong groups (filled given groups) _ _ _) in *. set (svars := candidates groups (chosen groups strong)) in *. cbn [gq_check group_path] in E. cbn [rbind] in E.
  set (sgrad := vadd _ _) in E. set (labels := labels_at groups svars) in E. set (r := g_check labels _ sgrad _ _ _) in E.
  assert (Lstrong : length strong = length (g_ids groups)) by apply strong_length. assert (Ids : g_ids labels = chosen groups strong) by apply chosen_ids.
  assert (Lr : length (failing_mask false r) = length (chosen groups strong)). { rewrite failing_mask_length by apply g_check_length. unfold r, g_check. cbn [snd]. rewrite ranks_of_length, map_length. congruence. }
  destruct (existsb (fun b0 => b0) (failing_mask false r)) eqn:Ef.
  - apply Ok_inj in E. injection E as <- <- <- <-. split; cbn [gs_set gs_fail]; auto. intros g Hg. apply chosen_exists in Hg. destruct Hg as (i & Hi & Hm & Eg & Em).
    assert (EM : nth i (gs_fail st) false = true \/ nth i (fill strong (failing_mask false r)) false = true). { clear - Hm Em. revert Em Hm. generalize (fill strong (failing_mask false r)) as c. generalize (gs_fail st) as a. intros a c. revert c i. induction a as [|x a IH]; intros [|y c] i Em Hm; try (destruct i; discriminate). destruct i; cbn in *; [apply orb_true_iff in Em; auto|]. apply IH; auto. unfold mask_or. lia. }
    destruct EM as [EM|EM].
    + apply NF. rewrite <- Eg. unfold chosen. apply in_map_iff. exists (nth i (g_ids groups) 0%Z, true). split; auto. apply filter_In. split; auto. assert (Hl : (i < length (gs_fail st))%nat) by (destruct (Nat.lt_ge_cases i (length (gs_fail st))); auto; rewrite nth_overflow in EM by auto; discriminate). revert EM Hi Hl. clear. generalize (gs_fail st) as a. generalize (g_ids groups) as l. intros l. revert i. induction l as [|h l IH]; intros i [|b a] EM Hi Hl; cbn in *; try lia. destruct i; [left; congruence|]. right. apply IH; auto; lia.
    + assert (Hc : In g (chosen groups (fill strong (failing_mask false r)))). { rewrite <- Eg. apply chosen_nth; [rewrite fill_length; auto|rewrite fill_length; lia|auto]. }
      unfold chosen in Hc. rewrite chosen_fill_gen in Hc by auto. fold (chosen groups strong) in Hc. apply in_map_iff in Hc. destruct Hc as ((h & c) & Eh & Hc). cbn [fst] in Eh. subst h. apply filter_In in Hc. destruct Hc as (Hc & Ec). cbn [snd] in Ec. subst c. destruct (In_nth _ _ (0%Z, false) Hc) as (k & Hk & Ek). rewrite combine_length, Lr, Nat.min_id in Hk. rewrite combine_nth in Ek by auto. injection Ek as E1 E2. rewrite <- E1, <- Ids. apply (gfailing_penalized labels sgrad (gather svars sol) (lp_alpha (gq_base P) * lnew) k); [intros h Hh; apply labels_at_In in Hh; tauto|congruence|exact E2].
  - assert (LA : labels_at groups (seq 0 (gq_size P)) = groups) by (rewrite <- LG; apply labels_all). rewrite LA in E. apply Ok_inj in E. injection E as <- <- <- <-. split; cbn [gs_set gs_fail]; auto. intros g Hg. apply chosen_exists in Hg. destruct Hg as (i & Hi & Hm & Eg & Em). rewrite <- Eg. eapply gfailing_penalized; [apply incl_refl|auto|exact Em].
Qed.
Lemma gtries_penalized : forall S max_tries lcur lnew fuel num st pt st', length groups = gq_size P -> gno_free st -> gtries fuel P S false max_tries lcur lnew num st = Ok (pt, st') -> gno_free st' /\ forall g, In g (gp_set pt) -> w g <> 0.
Proof.
  intros S max_tries lcur lnew. induction fuel as [|fuel IH]; intros num st pt st' LG NF E; [discriminate|]. cbn [gtries] in E. destruct (gtry P S false lcur lnew st) as [[[[ok sub] linpred] st1]|e] eqn:T; [|discriminate]. cbn [rbind] in E. assert (N1 := gtry_penalized _ _ _ _ _ _ _ _ LG NF T).
  destruct ok; [apply Ok_inj in E; injection E as <- <-; split; auto; apply N1|]. destruct (Nat.eqb (Datatypes.S num mod 5) 0); cbn [andb] in E; [destruct (Nat.leb max_tries (Datatypes.S num)); [apply Ok_inj in E; injection E as <- <-; split; [exact N1|apply N1]|]|].
  all: apply IH in E; auto; split; cbn [gs_set gs_fail]; [|apply N1]; intros g Hg; apply (gnext_penalized st1 N1 g); exact Hg.
Qed.
Theorem gnever_free : forall S max_tries fuel ls lcur st pts, length groups = gq_size P -> gno_free st -> grun fuel P S false max_tries lcur ls st = Ok pts -> Forall (fun pt => forall g, In g (gp_set pt) -> w g <> 0) pts.
Proof.
  intros S max_tries fuel. induction ls as [|l ls IH]; intros lcur st pts LG NF E; cbn [grun] in E; [apply Ok_inj in E; subst; constructor|].
  destruct (gtries fuel P S false max_tries lcur l 0 st) as [[pt st']|e] eqn:T; [|discriminate]. cbn [rbind fst snd] in E. destruct (grun fuel P S false max_tries l ls st') as [pts'|e] eqn:E'; [|discriminate]. cbn [rbind] in E. apply Ok_inj in E. subst pts.
  destruct (gtries_penalized _ _ _ _ _ _ _ _ _ LG NF T) as (N' & A). constructor; auto. eapply IH; eauto.
Qed.
Lemma gstart_free : forall sol g, gno_free (gstart P sol g).
Proof.
  intros sol g. split; [intros h []|]. intros h H. exfalso. unfold gstart in H. cbn [gs_fail] in H. apply chosen_exists in H. destruct H as (i & _ & _ & _ & H). rewrite nth_repeat in H. discriminate.
Qed.
End Free.

(** ** one group of two features, X = I, y = (6, 8), weight 1 *)
Definition pair_given : Z -> option R := fun _ => Some 1.
Definition pair_path : gpath := group_path (fun v => vsub v [6; 8]) (fun v => / 2 * sqn (vsub v [6; 8])) (matrix [[1; 0]; [0; 1]] 2 None) [1; 1]%Z pair_given [0; 0] 1.
Definition pair_answer (l : R) : vec := [soft 10 l * 6 / 10; soft 10 l * 8 / 10].
Definition pair_solver : solver := fun _ _ set l => gather set (pair_answer l).
Lemma pair_good : good_path (gq_base pair_path).
Proof. change (gq_base pair_path) with (gauss_path [[1; 0]; [0; 1]] 2 [6; 8] [1; 1] [0; 0] 1). apply gauss_good; auto; try lra; repeat constructor; lra. Qed.
Lemma pair_weight : forall g, group_weight pair_given [1; 1]%Z g = 1.
Proof. reflexivity. Qed.
Lemma norm2_sq : forall a b, norm [a; b] * norm [a; b] = a * a + b * b.
Proof. intros a b. unfold norm. rewrite sqrt_sqrt; [unfold sqn, dot, vsum; cbn; ring|apply sqn_nonneg]. Qed.
Lemma pair_objective : forall l a b, gpath_objective (gq_base pair_path) [1; 1]%Z (group_weight pair_given [1; 1]%Z) l [a; b] = / 2 * ((a - 6) * (a - 6) + (b - 8) * (b - 8)) + l * norm [a; b].
Proof.
  intros l a b. unfold gpath_objective, group_objective, group_penalty, smooth_part. cbn [distinct nodup in_dec]. unfold pair_path, group_path. cbn. unfold sqn, dot, vsum. cbn. destruct (Req_EM_T 1 0); [lra|]. ring_simplify. lra.
Qed.
Lemma pair_min : forall l a b, 0 < l -> gpath_objective (gq_base pair_path) [1; 1]%Z (group_weight pair_given [1; 1]%Z) l (pair_answer l) <= gpath_objective (gq_base pair_path) [1; 1]%Z (group_weight pair_given [1; 1]%Z) l [a; b].
Proof.
  intros l a b Hl. unfold pair_answer. rewrite !pair_objective. set (n := norm [a; b]). assert (Nn : 0 <= n) by apply norm_nonneg. assert (En : n * n = a * a + b * b) by apply norm2_sq.
  assert (Cs : 6 * a + 8 * b <= 10 * n). { assert (C := cauchy_schwarz [6; 8] [a; b] eq_refl). replace (norm [6; 8]) with 10 in C; [|symmetry; unfold norm; replace (sqn [6; 8]) with (10 * 10) by (unfold sqn, dot, vsum; cbn; ring); apply sqrt_square; lra]. assert (D := Rle_abs (dot [6; 8] [a; b])). replace (dot [6; 8] [a; b]) with (6 * a + 8 * b) in C, D by (unfold dot, vsum; cbn; ring). unfold n. lra. }
  assert (M := soft_min 10 l n ltac:(lra) Hl). rewrite (Rabs_right n) in M by lra. assert (Hs : 0 <= soft 10 l) by (unfold soft; destruct (Rle_dec l 10); lra). rewrite (Rabs_right (soft 10 l)) in M by lra. set (c := soft 10 l) in *.
  replace (norm [c * 6 / 10; c * 8 / 10]) with c; [nra|]. unfold norm. replace (sqn _) with (c * c) by (unfold sqn, dot, vsum; cbn; field). symmetry. apply sqrt_square. auto.
Qed.
Lemma pair_features : forall set, features [1; 1]%Z set = [] \/ features [1; 1]%Z set = [0; 1]%nat.
Proof. intros set. unfold features. cbn [length seq filter nth]. destruct (in_dec Z.eq_dec 1%Z set); auto. Qed.
Lemma pair_exact : exact_group_solver (gq_base pair_path) [1; 1]%Z (group_weight pair_given [1; 1]%Z) pair_solver /\ right_size pair_solver.
Proof.
  split; [|intros k v set l; apply map_length]. intros k v set l Hl. unfold group_solves. destruct (pair_features set) as [-> | ->].
  - split; auto. split; [eexists; reflexivity|]. intros c Lc. destruct c; [|discriminate]. cbn [ext_le]. apply Rle_refl.
  - split; auto. split; [eexists; reflexivity|]. intros c Lc. destruct c as [|a [|b [|]]]; try discriminate. change (embed (lp_size (gq_base pair_path)) [0%nat; 1%nat] [a; b]) with [a; b]. change (embed (lp_size (gq_base pair_path)) [0%nat; 1%nat] (pair_solver k v [0%nat; 1%nat] l)) with (pair_answer l). cbn [ext_le]. apply pair_min. auto.
Qed.
Lemma pair_gradient : forall l a b, path_gradient (gq_base pair_path) [a; b] (t_lin (lp_X (gq_base pair_path)) [a; b]) l = [a - 6; b - 8].
Proof. intros l a b. unfold path_gradient, pair_path, group_path. cbn. unfold dot, vsum, enet_entry. cbn. destruct (is0 1); f_equal; try lra; f_equal; lra. Qed.

(** ** a group without weight left out: x1 = x2 = 1, y = 2, groups 1 and 2, weights 0 and 1 *)
Lemma gfailing_map : forall labels given g s lam, failing_mask false (g_check labels given g s lam kkt_tol) = map (fun h => gtb (g_inactive_term labels given g s lam h) (1 + kkt_tol)) (g_ids labels).
Proof.
  intros labels given g s lam. assert (L : length (snd (g_check labels given g s lam kkt_tol)) = length (g_ids labels)) by (unfold g_check; cbn [snd]; rewrite ranks_of_length, map_length; auto). apply (nth_ext _ _ false false); [rewrite failing_mask_length, map_length; auto; apply g_check_length|]. intros i Hi. rewrite failing_mask_length in Hi by apply g_check_length. rewrite failing_mask_nth by (auto; apply g_check_length). cbn [andb orb]. rewrite L in Hi. set (F := fun h => gtb (g_inactive_term labels given g s lam h) (1 + kkt_tol)). rewrite (nth_indep _ false (F 0%Z)) by (rewrite map_length; auto). rewrite (map_nth F). unfold F.
  cbn [g_check snd]. assert (X := ranks_of_sign (map (g_inactive_term labels given g s lam) (g_ids labels)) kkt_tol i ltac:(rewrite map_length; auto)). rewrite (nth_indep (map _ _) 0 (g_inactive_term labels given g s lam 0%Z)) in X by (rewrite map_length; auto). rewrite (map_nth (g_inactive_term labels given g s lam)) in X. match goal with |- (if ?c then _ else _) = _ => destruct c as [H|H] end; symmetry; [apply gtb_true; apply X; auto|]. apply gtb_false. destruct (Rle_dec (g_inactive_term labels given g s lam (nth i (g_ids labels) 0%Z)) (1 + kkt_tol)); auto. exfalso. apply H, X. lra.
Qed.
Definition gfree_given : Z -> option R := fun g => if Z.eqb g 1 then Some 0 else Some 1.
Definition gfree_path : gpath := group_path (fun v => vsub v [2]) (fun v => / 2 * sqn (vsub v [2])) (matrix [[1; 1]] 2 None) [1; 2]%Z gfree_given [0; 0] 1.
Lemma gfree_base : gq_base gfree_path = free_path.
Proof. reflexivity. Qed.
Lemma norm1' : forall a, norm [a] = Rabs a.
Proof. intros a. unfold norm. replace (sqn [a]) with (a * a) by (unfold sqn, dot, vsum; cbn; ring). exact (sqrt_Rsqr_abs a). Qed.
Lemma gfree_objective : forall l a b, gpath_objective (gq_base gfree_path) [1; 2]%Z (group_weight gfree_given [1; 2]%Z) l [a; b] = / 2 * ((a + b - 2) * (a + b - 2)) + l * Rabs b.
Proof.
  intros l a b. unfold gpath_objective, group_objective, group_penalty, smooth_part. change (distinct [1; 2]%Z) with [1; 2]%Z. cbn [map]. change (block [1; 2]%Z 1 [a; b]) with [a]. change (block [1; 2]%Z 2 [a; b]) with [b]. rewrite !norm1'. change (group_weight gfree_given [1; 2]%Z 1) with 0. change (group_weight gfree_given [1; 2]%Z 2) with 1. unfold gfree_path, group_path. cbn. unfold sqn, dot, vsum. cbn. destruct (Req_EM_T 1 0), (Req_EM_T 0 0); lra.
Qed.
Lemma gterm_free : forall labels g s lam, g_inactive_term labels (filled gfree_given [1; 2]%Z) g s lam 1 = 0.
Proof. intros. unfold g_inactive_term. change (weight_of (filled gfree_given [1; 2]%Z) labels 1) with 0. replace (is0 0) with true by (symmetry; apply is0_true; auto). destruct (g_active _ _); auto. Qed.
Lemma gterm_active : forall a b c d lam, d <> 0 -> g_inactive_term [1; 2]%Z (filled gfree_given [1; 2]%Z) [a; b] [c; d] lam 2 = 0.
Proof. intros. unfold g_inactive_term. change (weight_of (filled gfree_given [1; 2]%Z) [1; 2]%Z 2) with 1. change (zpick 2 [1; 2]%Z [c; d]) with [d]. replace (g_active 1 [d]) with true; auto. symmetry. apply active_true. rewrite norm1'. split; [|lra]. apply Rabs_no_R0. auto. Qed.
Lemma gterm_zero : forall a b c lam, g_inactive_term [1; 2]%Z (filled gfree_given [1; 2]%Z) [a; b] [c; 0] lam 2 = Rabs b / (lam * 1).
Proof. intros. unfold g_inactive_term. change (weight_of (filled gfree_given [1; 2]%Z) [1; 2]%Z 2) with 1. change (zpick 2 [1; 2]%Z [c; 0]) with [0]. change (zpick 2 [1; 2]%Z [a; b]) with [b]. destruct (g_active 1 [0]) eqn:E; [apply active_true in E; rewrite norm1', Rabs_R0 in E; lra|]. replace (is0 1) with false by (symmetry; apply is0_false; lra). rewrite norm1'. reflexivity. Qed.
Lemma gmask2 : forall g s lam, failing_mask false (g_check [1; 2]%Z (filled gfree_given [1; 2]%Z) g s lam kkt_tol) = [false; gtb (g_inactive_term [1; 2]%Z (filled gfree_given [1; 2]%Z) g s lam 2) (1 + kkt_tol)].
Proof. intros. rewrite gfailing_map. change (g_ids [1; 2]%Z) with [1; 2]%Z. cbn [map]. rewrite gterm_free. f_equal. apply gtb_false. unfold kkt_tol. lra. Qed.
Lemma gfree_strong : forall a b, g_strong [1; 2]%Z (filled gfree_given [1; 2]%Z) [a; b] (1 * 1) (/ 2 * 1) = [if Rlt_dec 0 (Rabs a) then true else false; if Rlt_dec 0 (Rabs b) then true else false].
Proof.
  intros a b. unfold g_strong, g_terms. change (g_ids [1; 2]%Z) with [1; 2]%Z. cbn [map]. change (weight_of (filled gfree_given [1; 2]%Z) [1; 2]%Z 1) with 0. change (weight_of (filled gfree_given [1; 2]%Z) [1; 2]%Z 2) with 1. change (zpick 1 [1; 2]%Z [a; b]) with [a]. change (zpick 2 [1; 2]%Z [a; b]) with [b]. rewrite !norm1'.
  destruct (Rlt_dec 0 0); [lra|]. destruct (Rlt_dec 0 1); [|lra]. f_equal; [|f_equal].
  - destruct (Rlt_dec 0 (Rabs a)); auto. apply gtb_false. lra.
  - destruct (Rlt_dec 0 (Rabs b)); [apply gtb_true|apply gtb_false]; lra.
Qed.
Lemma gfree_lin : forall a b, t_lin (lp_X (gq_base gfree_path)) [a; b] = [a + b].
Proof. intros a b. cbn. unfold dot, vsum. cbn. f_equal. lra. Qed.
Lemma gfree_first : gtry gfree_path free_solver false 1 (/ 2) (gstart gfree_path [2; 0] [0; 0]) = Ok (false, [], [0], mk_gstate [2; 0] [-2; -2] [false; true] [] 1).
Proof.
  unfold gtry, gstart. change (gq_groups gfree_path) with [1; 2]%Z. change (g_ids [1; 2]%Z) with [1; 2]%Z. cbn [length repeat gs_set gs_fail gs_sol gs_calls gs_grad]. change (zunion [] (chosen [1; 2]%Z [false; false])) with (@nil Z). change (candidates [1; 2]%Z []) with (@nil nat). change (free_solver 0%nat [2; 0] [] (/ 2)) with (@nil R).
  change (lp_alpha (gq_base gfree_path)) with 1. change (gq_strong gfree_path) with (g_strong [1; 2]%Z (filled gfree_given [1; 2]%Z)). rewrite gfree_strong. rewrite Rabs_R0. destruct (Rlt_dec 0 0); [lra|]. change (chosen [1; 2]%Z [false; false]) with (@nil Z). change (candidates [1; 2]%Z []) with (@nil nat). cbn [gq_check gfree_path group_path]. cbv zeta. cbn [rbind].
  match goal with |- (if existsb _ (failing_mask false (g_check ?l ?w ?g ?s ?lam ?t)) then _ else _) = _ => replace (failing_mask false (g_check l w g s lam t)) with (@nil bool) end. 2: { symmetry. rewrite gfailing_map. reflexivity. }
  cbn [existsb]. change (labels_at [1; 2]%Z (seq 0 (gq_size gfree_path))) with [1; 2]%Z. change (gq_base gfree_path) with free_path. change (mat_tvec (t_out (lp_X free_path)) (subsample_columns (lp_X free_path) []) []) with [0]. change (M_affine.scatter [] [] [2; 0]) with [2; 0]. rewrite free_gradient, gmask2, gterm_zero. replace (0 - 2) with (-2) by lra. rewrite (Rabs_left (-2)) by lra. replace (gtb _ _) with true; [reflexivity|]. symmetry. apply gtb_true. unfold kkt_tol. lra.
Qed.
Lemma gfree_second : gtry gfree_path free_solver false 1 (/ 2) (mk_gstate [2; 0] [-2; -2] [false; true] [2%Z] 1) = Ok (true, [3 / 2], [3 / 2], mk_gstate [2; 3 / 2] [- / 2; - / 2] [false; false] [2%Z] 2).
Proof.
  unfold gtry. change (gq_groups gfree_path) with [1; 2]%Z. cbn [gs_set gs_fail gs_sol gs_calls gs_grad]. change (zunion [2%Z] (chosen [1; 2]%Z [false; true])) with [2%Z]. change (candidates [1; 2]%Z [2%Z]) with [1%nat]. change (free_solver 1%nat [2; 0] [1%nat] (/ 2)) with [3 / 2].
  change (lp_alpha (gq_base gfree_path)) with 1. change (gq_strong gfree_path) with (g_strong [1; 2]%Z (filled gfree_given [1; 2]%Z)). rewrite gfree_strong. rewrite (Rabs_left (-2)) by lra. destruct (Rlt_dec 0 (- -2)); [|lra]. change (chosen [1; 2]%Z [true; true]) with [1; 2]%Z. change (candidates [1; 2]%Z [1; 2]%Z) with [0; 1]%nat. cbn [gq_check gfree_path group_path]. cbv zeta. cbn [rbind].
  change (gq_base gfree_path) with free_path. assert (LP : mat_tvec (t_out (lp_X free_path)) (subsample_columns (lp_X free_path) [1%nat]) [3 / 2] = [3 / 2]) by (cbn; unfold dot, vsum; cbn; f_equal; lra). rewrite LP. change (M_affine.scatter [1%nat] [3 / 2] [2; 0]) with [2; 3 / 2]. change (gather [0%nat; 1%nat] [2; 3 / 2]) with [2; 3 / 2]. change (labels_at [1; 2]%Z [0%nat; 1%nat]) with [1; 2]%Z. change (labels_at [1; 2]%Z (seq 0 (gq_size gfree_path))) with [1; 2]%Z. set (sg := vadd _ _).
  assert (Lg : exists g h, sg = [g; h]) by (unfold sg; cbn; eexists; eexists; reflexivity). destruct Lg as (g & h & ->). rewrite gmask2, gterm_active by lra. replace (gtb 0 (1 + kkt_tol)) with false by (symmetry; apply gtb_false; unfold kkt_tol; lra). cbn [existsb orb].
  rewrite free_gradient, gmask2, gterm_active by lra. replace (gtb 0 (1 + kkt_tol)) with false by (symmetry; apply gtb_false; unfold kkt_tol; lra). replace (3 / 2 - 2) with (- / 2) by lra. reflexivity.
Qed.
Theorem gfree_wrong : forall fuel, exists pt, group_strong_rules (2 + fuel) gfree_path free_solver false 20 [1; / 2] [2; 0] [0; 0] = Ok [pt] /\ gp_warned pt = false /\ gp_beta pt = [2; 3 / 2] /\ group_solves (gq_base gfree_path) [1; 2]%Z (group_weight gfree_given [1; 2]%Z) (/ 2) (gp_set pt) (gp_sub pt) /\
  group_null (gq_base gfree_path) [1; 2]%Z (group_weight gfree_given [1; 2]%Z) [2; 0] /\ gpath_objective (gq_base gfree_path) [1; 2]%Z (group_weight gfree_given [1; 2]%Z) (/ 2) [2; 0] < gpath_objective (gq_base gfree_path) [1; 2]%Z (group_weight gfree_given [1; 2]%Z) (/ 2) (gp_beta pt).
Proof.
  intros fuel. unfold group_strong_rules. cbn [grun Nat.add]. set (f1 := Datatypes.S fuel). cbn [gtries]. rewrite gfree_first. change (1 mod 5)%nat with 1%nat. cbn [rbind Nat.eqb andb gs_sol gs_grad gs_fail gs_set gs_calls]. change (zunion [] (chosen (gq_groups gfree_path) [false; true])) with [2%Z].
  unfold f1. cbn [gtries]. rewrite gfree_second. cbn [rbind fst snd gs_sol gs_set]. eexists. split; [reflexivity|]. cbn [gp_warned gp_beta gp_set gp_sub]. split; [reflexivity|]. split; [reflexivity|]. split.
  - unfold group_solves. change (features [1; 2]%Z [2%Z]) with [1%nat]. split; auto. split; [eexists; reflexivity|]. intros c Lc. destruct c as [|c [|]]; try discriminate. change (embed (lp_size (gq_base gfree_path)) [1%nat] [3 / 2]) with [0; 3 / 2]. change (embed (lp_size (gq_base gfree_path)) [1%nat] [c]) with [0; c]. rewrite !gfree_objective. cbn [ext_le]. rewrite (Rabs_right (3 / 2)) by lra. assert (c <= Rabs c) by apply Rle_abs. assert (0 <= (c - 3 / 2) * (c - 3 / 2)) by apply Rle_0_sqr. lra.
  - split.
    + split; auto. rewrite gfree_lin. change (gq_base gfree_path) with free_path. rewrite free_gradient. split; intros g [<-|[<-|[]]] H.
      * destruct H. reflexivity.
      * change (block [1; 2]%Z 2 [2; 0]) with [0]. rewrite norm1'. apply Rabs_R0.
      * match goal with |- norm (block _ _ [?a; ?b]) = _ => change (block [1; 2]%Z 1 [a; b]) with [a] end. rewrite norm1'. replace (2 + 0 - 2) with 0 by lra. apply Rabs_R0.
      * exfalso. change (group_weight gfree_given [1; 2]%Z 2) with 1 in H. lra.
    + rewrite !gfree_objective. rewrite Rabs_R0, Rabs_right by lra. lra.
Qed.
