(** Lemmas for C110. *)
From Coq Require Import Reals List Lra Lia Arith Bool ZArith Sorted.
From Verif Require Import P_sgl5 Vec Spec SpecConvex SpecFista M_quad SpecGroup M_group SpecGatom P_fista2 P_part P_mixed P_kinds P_group SpecGpath P_gpath P_gpath2 P_sgpath3 SpecSbpath P_sbpath2.
Import ListNotations.
Local Open Scope R_scope.

Lemma filter_terms : forall {A B} (P : A * B -> bool) (F : A -> B) l, map fst (filter P (combine l (map F l))) = filter (fun a => P (a, F a)) l.
Proof. intros A B P F. induction l as [|a l IH]; auto. cbn. destruct (P (a, F a)); cbn; rewrite IH; auto. Qed.
Lemma filter_sorted : forall (P : Z -> bool) l, StronglySorted Z.lt l -> StronglySorted Z.lt (filter P l).
Proof.
  intros P. induction l as [|a l IH]; intros H; cbn; [constructor|]. inversion H as [|? ? S F]; subst. destruct (P a); auto. constructor; auto. rewrite Forall_forall in *. intros x Hx. apply filter_In in Hx. apply F. apply Hx.
Qed.
Lemma strong_set_sorted : forall labels given cur new slope grad, StronglySorted Z.lt (g_strong_set labels given cur new slope grad).
Proof. intros. unfold g_strong_set, g_terms. rewrite filter_terms. apply filter_sorted. apply sorted_unique_sorted. Qed.
Lemma strong_set_meaning : forall labels given cur new slope grad h, In h (g_strong_set labels (filled given labels) cur new slope grad) <-> In h labels /\ let w := group_weight given labels h in let m := norm (block labels h grad) in
  ((0 < w /\ (new - slope * (cur - new)) * w <= m) \/ (w <= 0 /\ (m <> 0 \/ new - slope * (cur - new) <= 0))).
Proof.
  intros labels given cur new slope grad h. unfold g_strong_set, g_terms. rewrite filter_terms, filter_In. unfold g_ids. rewrite sorted_unique_in. cbn [fst snd].
  split; intros (I & H); split; auto; rewrite (weight_filled given labels labels h I), zpick_block in *; cbv zeta in *; set (w := group_weight given labels h) in *; set (m := norm (block labels h grad)) in *; assert (Nm : 0 <= m) by apply norm_nonneg.
  - destruct (Rlt_dec 0 w) as [P|N].
    + left. split; auto. destruct (Rle_dec _ _) as [L|]; [|discriminate]. apply (Rmult_le_compat_r w) in L; [|lra]. unfold Rdiv in L. rewrite Rmult_assoc, Rinv_l in L by lra. lra.
    + right. split; [lra|]. destruct (Rlt_dec 0 m); [left; lra|]. right. destruct (Rle_dec _ _) as [L|]; [lra|discriminate].
  - destruct (Rlt_dec 0 w) as [P|N].
    + destruct H as [(_ & H)|(H & _)]; [|lra]. destruct (Rle_dec _ _) as [L|L]; auto. exfalso. apply L. apply Rmult_le_reg_r with w; auto. unfold Rdiv. rewrite Rmult_assoc, Rinv_l by lra. lra.
    + destruct (Rlt_dec 0 m) as [Q|Q]; auto. destruct H as [(H & _)|(_ & [H|H])]; try lra. destruct (Rle_dec _ _); auto. lra.
Qed.
Lemma minimizer_gstat : forall labels f w grad s lam h, is_gradient (length labels) f s grad -> length s = length labels -> 0 <= lam -> (forall k, In k labels -> 0 <= w k) -> In h labels ->
  (forall v, length v = length labels -> group_objective labels f w lam s <= group_objective labels f w lam v) -> gstat (lam * w h) (block labels h grad) (block labels h s).
Proof. intros labels f w grad s lam h G Ls Hl Hw Hh M. apply group_first with f; auto. intros d Ld _. apply M. vlen. Qed.
Lemma zero_entry : forall (ls : list Z) (s : vec) j, length s = length ls -> (j < length ls)%nat -> norm (block ls (nth j ls 0%Z) s) = 0 -> nth j s 0 = 0.
Proof.
  intros ls s j L Hj H. apply norm_eq_zero in H. revert s j L Hj H. induction ls as [|l ls IH]; intros [|a s] j L Hj H; try discriminate; [cbn in Hj; lia|]. rewrite block_cons in H. destruct j as [|j]; cbn [nth] in *.
  - rewrite Z.eqb_refl in H. unfold zeros in H. cbn [length repeat] in H. congruence.
  - apply IH; [cbn in L; congruence|cbn in Hj; lia|]. destruct (Z.eqb (nth j ls 0%Z) l); auto. unfold zeros in *. cbn [length repeat] in H. congruence.
Qed.
Lemma strong_set_safe : forall labels given f g gn s cur new slope h, let w := group_weight given labels in (forall k, In k labels -> 0 <= w k) -> In h labels -> 0 < w h -> 0 < new -> length g = length labels -> is_gradient (length labels) f s gn -> length s = length labels ->
  (forall v, length v = length labels -> group_objective labels f w new s <= group_objective labels f w new v) -> norm (block labels h (vsub gn g)) <= slope * (cur - new) * w h ->
  ~ In h (g_strong_set labels (filled given labels) cur new slope g) -> forall j, (j < length labels)%nat -> nth j labels 0%Z = h -> nth j s 0 = 0.
Proof.
  intros labels given f g gn s cur new slope h w Hw Ih Ph Hn Lg G Ls M D K j Hj Ej. apply (zero_entry labels s j); auto. rewrite Ej. destruct (Req_dec (norm (block labels h s)) 0) as [Z|Z]; auto. exfalso.
  assert (Lgn : length gn = length labels) by apply G. assert (L1 : length (block labels h gn) = length (block labels h s)) by (apply block_length; congruence).
  assert (St := minimizer_gstat labels f w gn s new h G Ls ltac:(lra) Hw Ih M). assert (E := gstat_dot _ _ _ L1 St).
  assert (C := cauchy_schwarz_abs _ _ L1). rewrite E in C. assert (N := norm_nonneg (block labels h s)). assert (Pc : 0 <= new * w h) by (apply Rmult_le_pos; lra).
  replace (- (new * w h) * norm (block labels h s)) with (- (new * w h * norm (block labels h s))) in C by ring. rewrite Rabs_Ropp, Rabs_right in C by (apply Rle_ge, Rmult_le_pos; auto). apply Rmult_le_reg_r in C; [|lra].
  apply K. apply strong_set_meaning. split; auto. cbv zeta. left. split; [exact Ph|]. fold w. rewrite vsub_block in D by auto.
  assert (T := norm_triangle (block labels h g) (vsub (block labels h gn) (block labels h g))). rewrite vadd_vsub in T by (apply block_length; congruence).
  assert (L2 : length (block labels h g) = length (vsub (block labels h gn) (block labels h g))) by (rewrite vsub_length by (apply block_length; congruence); apply block_length; congruence).
  specialize (T L2). lra.
Qed.
Lemma unpenalized_discarded : forall labels given f g s cur new slope h, let w := group_weight given labels in (forall k, In k labels -> 0 <= w k) -> In h labels -> w h = 0 -> 0 <= cur -> is_gradient (length labels) f s g -> length s = length labels ->
  (forall v, length v = length labels -> group_objective labels f w cur s <= group_objective labels f w cur v) -> 0 < new - slope * (cur - new) -> ~ In h (g_strong_set labels (filled given labels) cur new slope g).
Proof.
  intros labels given f g s cur new slope h w Hw Ih Zh Hc G Ls M T K. apply strong_set_meaning in K as (_ & K). cbv zeta in K. fold w in K. rewrite Zh in K.
  assert (Lg : length g = length labels) by apply G. assert (L1 : length (block labels h g) = length (block labels h s)) by (apply block_length; congruence).
  assert (St := minimizer_gstat labels f w g s cur h G Ls Hc Hw Ih M). rewrite Zh in St. assert (N := gstat_norm (cur * 0) _ _ L1 ltac:(lra) St). assert (P := norm_nonneg (block labels h g)).
  destruct K as [(K & _)|(_ & [K|K])]; lra.
Qed.
(** one unpenalized feature *)
Lemma free_objective : forall c lam v, group_objective [1%Z] (half_dist [c]) (group_weight (fun _ => Some 0) [1%Z]) lam [v] = / 2 * ((v - c) * (v - c)).
Proof. intros. unfold group_objective, group_penalty, half_dist, sqn, dot, group_weight. cbn. ring. Qed.
Lemma free_lost : forall c cur new, 0 < new <= cur -> cur < 2 * new -> is_gradient 1 (half_dist [c]) [c] [0] /\
  (forall lam v, length v = 1%nat -> v <> [c] -> group_objective [1%Z] (half_dist [c]) (group_weight (fun _ => Some 0) [1%Z]) lam [c] < group_objective [1%Z] (half_dist [c]) (group_weight (fun _ => Some 0) [1%Z]) lam v) /\
  g_strong_set [1%Z] (filled (fun _ => Some 0) [1%Z]) cur new 1 [0] = [].
Proof.
  intros c cur new H1 H2. assert (G := half_dist_gradient [c] [c] eq_refl). cbn in G. replace (c - c) with 0 in G by ring. split; [exact G|]. split.
  - intros lam [|v [|]] L N; try discriminate. rewrite !free_objective. assert (v <> c) by congruence. assert (0 < (v - c) * (v - c)) by nra. replace ((c - c) * (c - c)) with 0 by ring. lra.
  - assert (K : forall h, ~ In h (g_strong_set [1%Z] (filled (fun _ => Some 0) [1%Z]) cur new 1 [0])).
    { intros h K. apply strong_set_meaning in K as ([<-|[]] & K). cbv zeta in K. unfold group_weight in K. assert (E : norm (block [1%Z] 1 [0]) = 0). { cbn. unfold norm, sqn, dot. cbn. replace (0 * 0 + 0) with 0 by ring. apply sqrt_0. } rewrite E in K. destruct K as [(K & _)|(_ & [K|K])]; lra. }
    destruct (g_strong_set _ _ _ _ _ _) as [|a l]; auto. exfalso. apply (K a). left. auto.
Qed.
