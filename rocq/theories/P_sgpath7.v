(** Sparse group lasso: exact solutions of a restricted problem whose other groups pass are nearly optimal. *)
From Coq Require Import Reals List Lra Lia Psatz Bool ZArith.
From Verif Require P_sep.
From Verif Require Import M_affine SpecAffine P_affine P_affine2 Vec Spec SpecConvex M_quad M_prox M_semi SpecPart SpecGroup M_mixed M_weighted M_group SpecSgl M_sgl P_quad P_prox P_calc P_part P_weighted P_gauge P_group P_group2 P_sgl P_search P_sgl2 P_sgl3 P_sgl5
  M_loss SpecLoss SpecSmooth P_smooth P_fista M_problem M_cv SpecCv P_cv M_path SpecPath P_path P_path2 P_path3 P_path4 P_path6 M_gpath SpecGpath SpecSgpath P_gpath P_gpath2 P_gpath3 P_gpath4 P_sgpath P_sgpath2 P_sgpath3 P_sgpath4 P_sgpath5 P_sgpath6.
Import ListNotations.
Local Open Scope R_scope.

Section Exact.
Variables (B : lpath) (labels : list Z) (lw : vec) (w : Z -> R).
Hypothesis (GP : good_path B) (LG : length labels = lp_size B) (Ll : length lw = length labels) (Hlw : Forall (fun r => 0 <= r) lw) (Hw : forall h, In h labels -> 0 <= w h).
Let p := lp_size B.
Definition at_point (lam : R) (s : vec) : vec := path_gradient B s (t_lin (lp_X B) s) lam.
Lemma exact_sstat : forall lam set b g, 0 < lam -> In g labels -> In g set -> sparse_solves B labels lw w lam set b -> let s := embed p (features labels set) b in
  sstat (lp_alpha B * lam) (block labels g lw) (w g) (vopp (block labels g (at_point lam s))) (block labels g s).
Proof.
  intros lam set b g Hl Hg Hs (Lb & _ & M). set (vars := features labels set) in *. assert (I : index_set p vars) by (unfold vars, p; rewrite <- candidates_features, <- LG; apply candidates_index). intros s. fold vars in s. assert (Ls : length s = p) by apply (embed_length B). assert (Al := alpha_lam B GP lam Hl).
  apply (sparse_first labels (smooth_part B lam)); auto; [unfold at_point; rewrite LG; apply (path_gradient_right B GP); auto|unfold p in Ls; congruence|lra|].
  intros d Ld Zd. set (v := vadd s d). assert (Lv : length v = p) by (unfold v, vadd, p in *; rewrite <- LG; apply P_sep.vzip_length2; congruence).
  assert (Ev : embed p vars (gather vars v) = v). { apply (embed_gather B); auto. intros j Nj. destruct (Nat.lt_ge_cases j p) as [Hj|Hj]; [|apply nth_overflow; lia]. assert (N : nth j labels 0%Z <> g). { intros E. apply Nj. unfold vars. rewrite <- candidates_features. apply candidates_In. split; [unfold p in Hj; lia|]. rewrite E. exact Hs. }
    unfold v, vadd. rewrite (P_sep.nth_zip0 _ _ _ p) by (unfold p in *; auto; congruence). replace (nth j s 0) with 0 by (symmetry; apply (embed_outside B); auto). specialize (Zd _ N). replace (nth j d 0) with 0; [ring|]. symmetry. rewrite block_select in Zd by auto. assert (In (nth j d 0) (map (fun i => nth i d 0) (filter (fun i => Z.eqb (nth j labels 0%Z) (nth i labels 0%Z)) (seq 0 (length labels))))). { apply in_map_iff. exists j. split; auto. apply filter_In. split; [apply in_seq; unfold p in Hj; lia|apply Z.eqb_refl]. } rewrite Zd in H. unfold zeros in H. apply repeat_spec in H. exact H. }
  specialize (M (gather vars v)). unfold p in Ev. fold vars in M. rewrite Ev in M. apply M. unfold gather. rewrite map_length. reflexivity.
Qed.
Lemma block_outside : forall set b h, ~ In h set -> block labels h (embed p (features labels set) b) = zeros (length (block labels h (embed p (features labels set) b))).
Proof.
  intros set b h Ns. assert (Ls : length (embed p (features labels set) b) = p) by apply (embed_length B). set (s := embed p (features labels set) b) in *. rewrite block_select by (unfold p in Ls; congruence). rewrite map_length. set (l := filter _ _).
  assert (F : forall j, In j l -> nth j s 0 = 0). { intros j Hj. apply filter_In in Hj. destruct Hj as (Hj & Ej). apply Z.eqb_eq in Ej. apply (embed_outside B). intros Hv. rewrite <- candidates_features in Hv. apply candidates_In in Hv. destruct Hv as (_ & Hv). rewrite <- Ej in Hv. contradiction. }
  clearbody l. clear - F. induction l as [|j l IH]; auto. unfold zeros in *. cbn [map length repeat]. rewrite F by (left; auto). f_equal. apply IH. intros; apply F; right; auto.
Qed.
Lemma group_pen_zeros : forall a v n, group_pen a v (zeros n) = 0.
Proof. intros. unfold group_pen. rewrite norm_zeros. change (map Rabs (zeros n)) with (vabs (zeros n)). rewrite vabs_zeros, vmul_zeros_r, vsum_zeros'. ring. Qed.
Theorem sparse_nearly : forall lam set b v tol fuel, 0 < lam -> (20 < fuel)%nat -> 0 <= tol -> (1 / 2) ^ 50 <= lp_alpha B * lam -> sparse_solves B labels lw w lam set b -> let s := embed p (features labels set) b in let al := lp_alpha B * lam in
  (forall h, In h labels -> ~ In h set -> exists m o, gauge_function_dual_strong (vopp (block labels h (at_point lam s))) (block labels h lw) (w h) fuel = Ok (Fin m, o) /\ m / al <= 1 + tol) -> length v = p ->
  smooth_part B lam s + al * sparse_penalty labels lw w s <= smooth_part B lam v + al * ((1 + tol) * (1 + 2 / 10 ^ 6)) * sparse_penalty labels lw (fun g => w g + / 10 ^ 5) v.
Proof.
  intros lam set b v tol fuel Hl Hf Ht Hb So s al Out Lv. assert (Ls : length s = p) by apply (embed_length B). assert (Al := alpha_lam B GP lam Hl). fold al in Al, Hb. assert (G := path_gradient_right B GP lam s Ls). fold (at_point lam s) in G. assert (Lg : length (at_point lam s) = p) by apply G.
  set (big := fun h => al * ((1 + tol) * (1 + 2 / 10 ^ 6)) * group_pen (block labels h lw) (w h + / 10 ^ 5) (block labels h v)). set (small := fun h => al * group_pen (block labels h lw) (w h) (block labels h v)).
  assert (K := blocks_sound labels (smooth_part B lam) lw w al (at_point lam s) s v (fun h => big h - small h)). rewrite LG in K. fold p in K. specialize (K (smooth_convex B GP lam ltac:(lra)) G Ls Lv). 
  replace (vsum (map (fun h => big h - small h) (distinct labels))) with (al * ((1 + tol) * (1 + 2 / 10 ^ 6)) * sparse_penalty labels lw (fun g => w g + / 10 ^ 5) v - al * sparse_penalty labels lw w v) in K.
  2:{ unfold sparse_penalty. rewrite <- !vsum_map_scal. clear. induction (distinct labels) as [|h l IH]; cbn [map]; [unfold vsum; simpl; ring|]. rewrite !vsum_cons, <- IH. unfold big, small, group_pen. ring. }
  cbv beta in K. enough (smooth_part B lam s + al * sparse_penalty labels lw w s <= smooth_part B lam v + al * sparse_penalty labels lw w v + (al * ((1 + tol) * (1 + 2 / 10 ^ 6)) * sparse_penalty labels lw (fun g => w g + / 10 ^ 5) v - al * sparse_penalty labels lw w v)) by lra. apply K. clear K. intros h Hh.
  assert (Lb : forall x, length x = p -> length (block labels h x) = length (vopp (block labels h (at_point lam s)))) by (intros x Lx; unfold vopp; rewrite map_length; apply block_length; unfold p in *; congruence).
  assert (Ha : Forall (fun r => 0 <= r) (block labels h lw)) by (apply block_forall; auto). assert (Wh := Hw h Hh).
  destruct (in_dec Z.eq_dec h set) as [Hs|Ns].
  - assert (St := exact_sstat lam set b h Hl Hh Hs So (block labels h v) (Lb v Lv)). fold s al in St. assert (small h <= big h). { unfold small, big. assert (P0 : 0 <= group_pen (block labels h lw) (w h) (block labels h v)) by (unfold group_pen; apply (one_nonneg (block labels h lw) (w h) (length (block labels h v)) (block labels h v) _ Ha Wh eq_refl (one_group_value _ _ _))). 
      assert (P1 : group_pen (block labels h lw) (w h) (block labels h v) <= group_pen (block labels h lw) (w h + / 10 ^ 5) (block labels h v)) by (unfold group_pen; assert (N := norm_nonneg (block labels h v)); nra).
      rewrite Rmult_assoc. apply Rmult_le_compat_l; [lra|]. assert (1 <= (1 + tol) * (1 + 2 / 10 ^ 6)) by nra. nra. } lra.
  - assert (Z := block_outside set b h Ns). fold s in Z. destruct (Out h Hh Ns) as (m & o & E & Hm). assert (Q := inactive_sound (vopp (block labels h (at_point lam s))) (block labels h lw) (w h) (block labels h s) al tol fuel (block labels h v) m o Hf (Lb lw ltac:(unfold p; congruence)) (Lb s Ls) (Lb v Lv) Ha Wh ltac:(lra) Ht Hb E Hm).
    unfold inactive_error in Q. assert (P0 : group_pen (block labels h lw) (w h) (block labels h s) = 0) by (rewrite Z; apply group_pen_zeros). assert (D0 : vsub (block labels h v) (block labels h s) = block labels h v).
    { rewrite Z. assert (L2 : length (block labels h s) = length (block labels h v)) by (rewrite (Lb s Ls), (Lb v Lv); auto). rewrite L2. clear. generalize (block labels h v). intros u. induction u as [|a u IH]; auto. unfold vsub, zeros in *. cbn [length repeat vzip]. rewrite IH. f_equal. ring. }
    rewrite D0, P0 in *.
    unfold big, small. lra.
Qed.
End Exact.
(** a group at 0 that passes *)
Lemma sg_zero_passes : forall labels lw given grad s lam tol fuel r h, let w := group_weight given labels in tol < 2 -> Forall (fun a => 0 <= a) lw -> sg_check labels lw given grad s lam tol fuel = Ok r -> inactive_passes r -> In h labels -> block labels h s = zeros (length (block labels h s)) ->
  exists m o, gauge_function_dual_strong (vopp (block labels h grad)) (block labels h lw) (w h) fuel = Ok (Fin m, o) /\ m / lam <= 1 + tol.
Proof.
  intros labels lw given grad s lam tol fuel r h w Ht Hlw Er Pr Hh Z. destruct (rall (sg_one labels lw given grad s lam tol fuel) (g_ids labels)) as [rs|] eqn:ER; [|unfold sg_check in Er; rewrite ER in Er; discriminate].
  unfold sg_check in Er. rewrite ER in Er. cbn [rmap] in Er. apply Ok_inj in Er. subst r. unfold inactive_passes in Pr. cbn [snd] in Pr. rewrite ranks_of_neg, ext_terms_bound in Pr by auto. apply rall_spec in ER.
  destruct (forall2_left _ _ _ ER h ltac:(apply sorted_unique_in; auto)) as (q & Hq & Eq). destruct (Pr (snd q) ltac:(apply in_map; auto)) as (a & Q2 & Qa). destruct q as (b & e). cbn [snd] in Q2. subst e.
  unfold sg_one in Eq. rewrite !zpick_block in Eq. change (weight_of given labels h) with (w h) in Eq. rewrite group_pen_abs in Eq by (apply block_forall; auto). rewrite Z in Eq at 1. rewrite group_pen_zeros in Eq.
  assert (G0 : gtb 0 (/ 10 ^ 6 * norm s) = false) by (apply gtb_false; assert (N := norm_nonneg s); nra). rewrite G0 in Eq. destruct (gtb _ _); [|discriminate]. destruct (gauge_function_dual_strong _ _ _ _) as [(v, o)|] eqn:EG; [|discriminate]. cbn [rmap fst] in Eq. apply Ok_inj in Eq. destruct v as [m|]; [|discriminate]. injection Eq as _ Ea. exists m, o. split; auto. rewrite Ea. exact Qa.
Qed.
Theorem sparse_optimal : forall grad func X groups lw given enet alpha l1_alpha fuel0, let P := sparse_group_path grad func X groups lw given enet alpha l1_alpha fuel0 in let B := gq_base P in let a := map (fun x => x * l1_alpha) lw in let w := group_weight (sg_weights groups given l1_alpha) groups in
  good_path B -> length groups = lp_size B -> length lw = length groups -> (20 < fuel0)%nat -> Forall (fun x => 0 <= x) a -> (forall h, In h groups -> 0 <= w h) ->
  forall lam set b r v, 0 < lam -> (1 / 2) ^ 50 <= alpha * lam -> sparse_solves B groups a w lam set b -> let s := embed (lp_size B) (features groups set) b in
  sg_check groups a (sg_weights groups given l1_alpha) (path_gradient B s (t_lin X s) lam) s (alpha * lam) kkt_tol fuel0 = Ok r -> inactive_passes r -> length v = lp_size B ->
  smooth_part B lam s + alpha * lam * sparse_penalty groups a w s <= smooth_part B lam v + alpha * lam * ((1 + kkt_tol) * (1 + 2 / 10 ^ 6)) * sparse_penalty groups a (fun g => w g + / 10 ^ 5) v.
Proof.
  intros grad func X groups lw given enet alpha l1_alpha fuel0 P B a w GP LG Ll Hf Ha Hw lam set b r v Hl Hb So s Er Pr Lv. assert (La : length a = length groups) by (unfold a; rewrite map_length; auto).
  apply (sparse_nearly B groups a w GP LG La Ha Hw lam set b v kkt_tol fuel0); auto; [apply kkt_tol_pos|]. intros h Hh Ns.
  apply (sg_zero_passes groups a (sg_weights groups given l1_alpha) _ s _ kkt_tol fuel0 r h); auto; [unfold kkt_tol; lra|]. apply (block_outside B groups a LG La). exact Ns.
Qed.
