(** Proofs about group lasso and mixed lasso objects. *)
From Coq Require Import Reals List Lra Lia Psatz Bool Permutation ZArith Sorted FunctionalExtensionality.
From Verif Require Import Vec Spec M_quad M_prox M_semi SpecAtom M_shift SpecBase SpecMode M_mode SpecModed SpecWeighted SpecPart SpecGroup M_slope M_mixed M_group M_mixed_atom SpecGatom
  P_quad P_pl P_prox P_feas P_semi P_conj P_shift P_gauge P_slope P_part P_mixed P_kinds.
Import ListNotations.
Local Open Scope R_scope.

(** ** Labels *)
Lemma insert_z_in : forall g h l, In h (insert_z g l) <-> h = g \/ In h l.
Proof.
  intros g h. induction l as [|k l IH]; simpl; [intuition|]. destruct (Z.eqb_spec g k) as [->|N]; [simpl; intuition|]. destruct (Z.ltb g k); simpl; [intuition|]. rewrite IH. intuition.
Qed.
Lemma sorted_unique_in : forall h l, In h (sorted_unique l) <-> In h l.
Proof. intros h. unfold sorted_unique. induction l as [|k l IH]; simpl; [tauto|]. rewrite insert_z_in, IH. intuition. Qed.
Lemma insert_z_sorted : forall g l, StronglySorted Z.lt l -> StronglySorted Z.lt (insert_z g l).
Proof.
  intros g. induction l as [|k l IH]; intros H; simpl; [repeat constructor|]. inversion H as [|? ? H1 H2]; subst.
  destruct (Z.eqb_spec g k) as [->|N]; auto. destruct (Z.ltb_spec g k).
  - constructor; auto. constructor; auto. eapply Forall_impl; [|exact H2]. simpl. lia.
  - constructor; auto. apply Forall_forall. intros h Hh. apply insert_z_in in Hh. rewrite Forall_forall in H2. destruct Hh as [->|Hh]; [lia|auto].
Qed.
Lemma sorted_unique_sorted : forall l, StronglySorted Z.lt (sorted_unique l).
Proof. induction l as [|k l IH]; [constructor|]. unfold sorted_unique in *. cbn [fold_right]. apply insert_z_sorted. exact IH. Qed.
Lemma sorted_lt_nodup : forall l, StronglySorted Z.lt l -> NoDup l.
Proof.
  induction l as [|k l IH]; intros H; constructor; inversion H as [|? ? H1 H2]; subst; auto. intros C. rewrite Forall_forall in H2. specialize (H2 _ C). lia.
Qed.
Lemma ids_perm : forall l, Permutation (g_ids l) (distinct l).
Proof.
  intros l. apply NoDup_Permutation; [apply sorted_lt_nodup, sorted_unique_sorted|apply NoDup_nodup|]. intros h. unfold g_ids, distinct. rewrite sorted_unique_in, nodup_In. tauto.
Qed.
Lemma index_of_in : forall g ids, In g ids -> (index_of g ids < length ids)%nat /\ nth (index_of g ids) ids 0%Z = g.
Proof.
  intros g. induction ids as [|h ids IH]; intros H; [destruct H|]. cbn [index_of]. destruct (Z.eqb_spec g h) as [->|N]; [simpl; split; [lia|auto]|].
  destruct H as [H|H]; [congruence|]. destruct (IH H). simpl. split; [lia|auto].
Qed.
Lemma index_of_eqb : forall ids k g, NoDup ids -> In g ids -> (k < length ids)%nat -> Nat.eqb k (index_of g ids) = Z.eqb (nth k ids 0%Z) g.
Proof.
  intros ids k g N Hg Hk. destruct (index_of_in g ids Hg) as [H1 H2]. destruct (Nat.eqb_spec k (index_of g ids)) as [E|E].
  - subst k. rewrite H2. symmetry. apply Z.eqb_refl.
  - symmetry. apply Z.eqb_neq. intros C. apply E. rewrite <- C. destruct (index_of_in (nth k ids 0%Z) ids (nth_In _ _ Hk)) as [H3 H4].
    rewrite (NoDup_nth ids 0%Z) in N. apply N; auto.
Qed.

(** ** Sums over an enumeration *)
Lemma ext_add_comm : forall a b, ext_add a b = ext_add b a.
Proof. intros [|] [|]; simpl; auto. f_equal. lra. Qed.
Lemma ext_add_assoc : forall a b c, ext_add (ext_add a b) c = ext_add a (ext_add b c).
Proof. intros [|] [|] [|]; simpl; auto. f_equal. lra. Qed.
Lemma ext_max_comm : forall a b, ext_max a b = ext_max b a.
Proof. intros [|] [|]; simpl; auto. rewrite Rmax_comm. auto. Qed.
Lemma ext_max_assoc : forall a b c, ext_max (ext_max a b) c = ext_max a (ext_max b c).
Proof. intros [|] [|] [|]; simpl; auto. f_equal. unfold Rmax. repeat destruct (Rle_dec _ _); lra. Qed.
Lemma ext_sum_perm : forall l l', Permutation l l' -> ext_sum l = ext_sum l'.
Proof. induction 1; simpl; auto; try congruence. rewrite <- !ext_add_assoc, (ext_add_comm y x). auto. Qed.
Lemma ext_max_perm : forall l l', Permutation l l' -> ext_maximum l = ext_maximum l'.
Proof. induction 1; simpl; auto; try congruence. rewrite <- !ext_max_assoc, (ext_max_comm y x). auto. Qed.
Lemma ext_sum_app : forall l l', ext_sum (l ++ l') = ext_add (ext_sum l) (ext_sum l').
Proof. induction l as [|a l IH]; intros l'; simpl; [destruct (ext_sum l'); simpl; auto; f_equal; lra|]. unfold ext_sum in *. rewrite IH, ext_add_assoc. auto. Qed.
Definition pos_ext (a : ext) : Prop := match a with Fin r => 0 <= r | PInf => True end.
Lemma ext_maximum_nonneg : forall l, pos_ext (ext_maximum l).
Proof. induction l as [|a l IH]; simpl; [lra|]. destruct a as [r|], (ext_maximum l) as [s|]; simpl in *; auto. pose proof (Rmax_r r s). lra. Qed.
Lemma ext_max_app : forall l l', ext_maximum (l ++ l') = ext_max (ext_maximum l) (ext_maximum l').
Proof.
  induction l as [|a l IH]; intros l'; simpl.
  - pose proof (ext_maximum_nonneg l') as H. destruct (ext_maximum l'); simpl in *; auto. rewrite Rmax_right; auto.
  - unfold ext_maximum in *. rewrite IH, ext_max_assoc. auto.
Qed.
Lemma esum_list : forall (G : Z -> ext) ids F, (forall k, (k < length ids)%nat -> F k = G (nth k ids 0%Z)) -> esum (length ids) F = ext_sum (map G ids).
Proof.
  intros G ids. induction ids as [|g ids IH] using rev_ind; intros F H; auto. rewrite app_length. cbn [length]. replace (length ids + 1)%nat with (S (length ids)) by lia. cbn [esum].
  rewrite map_app, ext_sum_app. rewrite IH. 2:{ intros k Hk. rewrite H by (rewrite app_length; simpl; lia). rewrite app_nth1; auto. }
  rewrite H by (rewrite app_length; simpl; lia). rewrite nth_middle. simpl. destruct (G g); simpl; auto. rewrite Rplus_0_r. auto.
Qed.
Lemma emax_list : forall (G : Z -> ext) ids F, (forall k, (k < length ids)%nat -> F k = G (nth k ids 0%Z)) -> (forall g, In g ids -> pos_ext (G g)) -> emax (length ids) F = ext_maximum (map G ids).
Proof.
  intros G ids. induction ids as [|g ids IH] using rev_ind; intros F H P; auto. rewrite app_length. cbn [length]. replace (length ids + 1)%nat with (S (length ids)) by lia. cbn [emax].
  rewrite map_app, ext_max_app. rewrite IH. 2:{ intros k Hk. rewrite H by (rewrite app_length; simpl; lia). rewrite app_nth1; auto. } 2:{ intros; apply P, in_or_app; auto. }
  rewrite H by (rewrite app_length; simpl; lia). rewrite nth_middle. simpl. assert (Pg : pos_ext (G g)) by (apply P, in_or_app; simpl; auto). destruct (G g); simpl in *; auto. rewrite (Rmax_left _ 0) by auto. auto.
Qed.

(** ** The class gauges are the documented functions *)
Section Labels.
Variables (labels ids : list Z) (w : Z -> R) (kf : Z -> kind).
Let warr := map w ids.
Let q := length warr.
Let kinds := map kf labels.
Let a := map (kidx q) kinds.
Hypothesis Nd : NoDup ids.
Lemma q_ids : q = length ids. Proof. unfold q, warr. apply map_length. Qed.
Lemma nth_warr : forall k, (k < length ids)%nat -> nth k warr 0 = w (nth k ids 0%Z).
Proof. intros k Hk. unfold warr. rewrite (nth_indep _ 0 (w 0%Z)) by (rewrite map_length; auto). apply map_nth. Qed.
Lemma cls_labels : forall k x, cls a k x = pick (fun l => Nat.eqb k (kidx q (kf l))) labels x.
Proof. intros. unfold cls, a, kinds. rewrite map_map. apply pick_labels. Qed.
Lemma hk_group : forall k, (k < length ids)%nat -> hk q warr k = group_term (w (nth k ids 0%Z)) /\ hk' q warr k = group_dual_term (w (nth k ids 0%Z)).
Proof. intros k Hk. unfold hk, hk', kof. rewrite q_ids. destruct (Nat.ltb_spec k (length ids)); [|lia]. rewrite nth_warr by auto. auto. Qed.
Lemma group_dual_pos : forall r u, 0 <= r -> pos_ext (group_dual_term r u).
Proof.
  intros r u Hr. unfold group_dual_term. rewrite ell2_norm. destruct (Rlt_dec 0 r); simpl; [apply Rmult_le_pos; [apply norm_nonneg|apply Rlt_le, Rinv_0_lt_compat; auto]|].
  destruct (Req_EM_T (norm u) 0); simpl; auto; lra.
Qed.
Lemma mix_split : (forall k x, (k < length ids)%nat -> cls a k x = block labels (nth k ids 0%Z) x) -> forall x,
  mix kinds warr x = ext_add (ext_add (ext_add (ext_sum (map (fun g => group_term (w g) (block labels g x)) ids)) (doc_seminorm CL1 (cls a q x))) (doc_seminorm CConPosPart (cls a (q + 2) x))) (nn_ind (cls a (q + 3) x)).
Proof.
  intros Hc x. unfold mix, hsum. replace (length warr + 4)%nat with (S (S (S (S q)))) by (unfold q; lia). cbn [esum]. fold q. fold a.
  replace (esum q (fun k => hk q warr k (cls a k x))) with (ext_sum (map (fun g => group_term (w g) (block labels g x)) ids)).
  2:{ rewrite q_ids at 1. symmetry. apply esum_list. intros k Hk. destruct (hk_group k Hk) as [-> _]. rewrite Hc by auto. auto. }
  replace (S (S q)) with (q + 2)%nat by lia. replace (S q) with (q + 1)%nat by lia. replace (S (q + 2)) with (q + 3)%nat by lia.
  assert (K0 : kof q q = ML1) by (apply (kof_kidx q ML1); exact I). assert (K1 : kof q (q + 1) = MUnpen) by (apply (kof_kidx q MUnpen); exact I).
  assert (K2 : kof q (q + 2) = MPos) by (apply (kof_kidx q MPos); exact I). assert (K3 : kof q (q + 3) = MNonneg) by (apply (kof_kidx q MNonneg); exact I).
  unfold hk at 1 2 3 4. rewrite K0, K1, K2, K3.
  assert (Z : forall e y, ext_add e (free y) = e) by (intros [r|] y; simpl; auto; f_equal; lra). rewrite Z. auto.
Qed.
Hypothesis Hw : forall g, In g ids -> 0 <= w g.
Lemma mix'_split : (forall k x, (k < length ids)%nat -> cls a k x = block labels (nth k ids 0%Z) x) -> forall x,
  mix' kinds warr x = ext_max (ext_max (ext_max (ext_max (ext_maximum (map (fun g => group_dual_term (w g) (block labels g x)) ids)) (doc_seminorm CSup (cls a q x))) (zero_ind (cls a (q + 1) x))) (doc_seminorm CMaxPos (cls a (q + 2) x))) (np_ind (cls a (q + 3) x)).
Proof.
  intros Hc x. unfold mix', hmax. replace (length warr + 4)%nat with (S (S (S (S q)))) by (unfold q; lia). cbn [emax]. fold q. fold a.
  replace (emax q (fun k => hk' q warr k (cls a k x))) with (ext_maximum (map (fun g => group_dual_term (w g) (block labels g x)) ids)).
  2:{ rewrite q_ids at 1. symmetry. apply emax_list; [|intros; apply group_dual_pos; auto]. intros k Hk. destruct (hk_group k Hk) as [_ ->]. rewrite Hc by auto. auto. }
  replace (S (S q)) with (q + 2)%nat by lia. replace (S q) with (q + 1)%nat by lia. replace (S (q + 2)) with (q + 3)%nat by lia.
  assert (K0 : kof q q = ML1) by (apply (kof_kidx q ML1); exact I). assert (K1 : kof q (q + 1) = MUnpen) by (apply (kof_kidx q MUnpen); exact I).
  assert (K2 : kof q (q + 2) = MPos) by (apply (kof_kidx q MPos); exact I). assert (K3 : kof q (q + 3) = MNonneg) by (apply (kof_kidx q MNonneg); exact I).
  unfold hk' at 1 2 3 4. rewrite K0, K1, K2, K3. auto.
Qed.
End Labels.

(** Group labels *)
Lemma ids_nodup : forall l, NoDup (g_ids l).
Proof. intros. apply sorted_lt_nodup, sorted_unique_sorted. Qed.
Lemma g_cls : forall labels (w : Z -> R) k x, (k < length (g_ids labels))%nat -> cls (map (kidx (length (map w (g_ids labels)))) (g_kinds labels)) k x = block labels (nth k (g_ids labels) 0%Z) x.
Proof.
  intros labels w k x Hk. unfold cls, g_kinds. rewrite map_map, pick_labels. unfold block. apply pick_ext_f. intros l Hl. cbn [kidx].
  apply index_of_eqb; auto; [apply ids_nodup|]. apply sorted_unique_in. auto.
Qed.
Lemma g_cls_empty : forall labels (w : Z -> R) k x, (length (g_ids labels) <= k)%nat -> cls (map (kidx (length (map w (g_ids labels)))) (g_kinds labels)) k x = [].
Proof.
  intros labels w k x Hk. unfold cls, g_kinds. rewrite map_map, pick_labels. apply pick_none. intros l Hl. cbn [kidx].
  destruct (index_of_in l (g_ids labels)) as [H1 _]; [apply sorted_unique_in; auto|]. apply Nat.eqb_neq. lia.
Qed.
Lemma g_valid : forall labels (w : Z -> R), Forall (kvalid (length (map w (g_ids labels)))) (g_kinds labels).
Proof.
  intros labels w. rewrite map_length. apply Forall_forall. intros k Hk. unfold g_kinds in Hk. apply in_map_iff in Hk. destruct Hk as (l & <- & Hl).
  simpl. apply index_of_in. apply sorted_unique_in. auto.
Qed.
Lemma g_only : forall labels k, In k (g_kinds labels) -> exists j, k = MGroup j.
Proof. intros labels k Hk. unfold g_kinds in Hk. apply in_map_iff in Hk. destruct Hk as (l & <- & Hl). eauto. Qed.
Lemma g_kinds_length : forall labels, length (g_kinds labels) = length labels.
Proof. intros. apply map_length. Qed.
Lemma nn_nil : nn_ind [] = Fin 0. Proof. unfold nn_ind. destruct (nonneg_dec []) as [|N]; [auto|destruct N; constructor]. Qed.
Lemma np_nil : np_ind [] = Fin 0. Proof. unfold np_ind. destruct (nonpos_dec []) as [|N]; [auto|destruct N; constructor]. Qed.
Lemma zero_nil : zero_ind [] = Fin 0. Proof. unfold zero_ind. destruct (zero_dec []) as [|N]; [auto|destruct N; constructor]. Qed.
Lemma ext_add_0_r : forall e, ext_add e (Fin 0) = e.
Proof. intros [r|]; simpl; auto. f_equal. lra. Qed.
Lemma ext_max_0_r : forall e, pos_ext e -> ext_max e (Fin 0) = e.
Proof. intros [r|] H; simpl in *; auto. f_equal. apply Rmax_left. auto. Qed.
Lemma pos_max0 : forall e, pos_ext (ext_max e (Fin 0)).
Proof. intros [r|]; simpl; auto. apply Rmax_r. Qed.
Lemma glasso_mix : forall labels (w : Z -> R) x, mix (g_kinds labels) (map w (g_ids labels)) x = glasso labels w x.
Proof.
  intros labels w x. unfold g_kinds. rewrite mix_split by (intros; apply g_cls; auto).
  rewrite !g_cls_empty by (rewrite ?map_length; lia). rewrite nn_nil.
  replace (doc_seminorm CL1 []) with (Fin 0) by (cbn; unfold ell1; auto). replace (doc_seminorm CConPosPart []) with (Fin 0) by (symmetry; apply (doc_zero CConPosPart 0)).
  rewrite !ext_add_0_r. unfold glasso. apply ext_sum_perm. apply Permutation_map. apply ids_perm.
Qed.
Lemma glasso_dual_mix : forall labels (w : Z -> R) x, (forall g, In g labels -> 0 <= w g) -> mix' (g_kinds labels) (map w (g_ids labels)) x = glasso_dual labels w x.
Proof.
  intros labels w x Hw. unfold g_kinds. rewrite mix'_split; [|intros g Hg; apply Hw; apply sorted_unique_in; auto|intros; apply g_cls; auto].
  rewrite !g_cls_empty by (rewrite ?map_length; lia). rewrite np_nil, zero_nil.
  replace (doc_seminorm CSup []) with (Fin 0) by (symmetry; apply (doc_zero CSup 0)). replace (doc_seminorm CMaxPos []) with (Fin 0) by (symmetry; apply (doc_zero CMaxPos 0)).
  rewrite !ext_max_0_r by (first [apply ext_maximum_nonneg|apply pos_max0]). unfold glasso_dual. apply ext_max_perm. apply Permutation_map. apply ids_perm.
Qed.
Lemma warr_map : forall labels given, g_warr labels given = map (group_weight given labels) (g_ids labels).
Proof. reflexivity. Qed.
Lemma warr_forall : forall (P : R -> Prop) labels given, (forall g, In g labels -> P (group_weight given labels g)) -> Forall P (g_warr labels given).
Proof. intros P labels given H. rewrite warr_map. apply Forall_forall. intros r Hr. apply in_map_iff in Hr. destruct Hr as (g & <- & Hg). apply H. apply sorted_unique_in. auto. Qed.
Lemma warr_in : forall labels given g, In g labels -> In (group_weight given labels g) (g_warr labels given).
Proof. intros. rewrite warr_map. apply in_map. apply sorted_unique_in. auto. Qed.
Lemma warr_pos : forall labels given, labels <> [] -> (0 < length (g_warr labels given))%nat.
Proof.
  intros labels given H. rewrite warr_map, map_length. destruct labels as [|g l]; [congruence|]. assert (I : In g (g_ids (g :: l))) by (apply sorted_unique_in; left; auto).
  destruct (g_ids (g :: l)); [destruct I|simpl; lia].
Qed.
Lemma gfun_polar : forall labels given n, length labels = n -> weights_nonneg labels given -> polar_pair n (gfun false labels given) (gfun true labels given) /\ polar_pair n (gfun true labels given) (gfun false labels given).
Proof.
  intros labels given n Ln Hw. assert (Hw' := warr_forall (fun r => 0 <= r) labels given Hw).
  assert (E1 : forall x, mix (g_kinds labels) (g_warr labels given) x = gfun false labels given x) by (intros; apply glasso_mix).
  assert (E2 : forall x, mix' (g_kinds labels) (g_warr labels given) x = gfun true labels given x) by (intros; apply glasso_dual_mix; auto).
  pose proof (mix_polar (g_kinds labels) (g_warr labels given) (g_valid _ _) Hw') as P1. pose proof (mix_polar_rev (g_kinds labels) (g_warr labels given) (g_valid _ _) Hw') as P2.
  rewrite g_kinds_length, Ln in P1, P2. split; eapply polar_ext; eauto.
Qed.

(** ** Group lasso methods *)
Lemma mix_gfun : forall labels given, mix (g_kinds labels) (g_warr labels given) = gfun false labels given.
Proof. intros. apply functional_extensionality. intros x. apply glasso_mix. Qed.
Lemma mix'_gfun : forall labels given, weights_nonneg labels given -> mix' (g_kinds labels) (g_warr labels given) = gfun true labels given.
Proof. intros labels given H. apply functional_extensionality. intros x. apply glasso_dual_mix. auto. Qed.
Lemma range_nonneg : forall labels given, weights_range labels given -> weights_nonneg labels given.
Proof. intros labels given H g Hg. apply wok_nonneg. apply H. auto. Qed.
Lemma some_warr : forall labels given, some_weight labels given -> exists r, In r (g_warr labels given) /\ r <> 0.
Proof. intros labels given (g & Hg & Hn). exists (group_weight given labels g). split; auto. apply warr_in. auto. Qed.
Section Methods.
Variables (labels : list Z) (given : Z -> option R) (n : nat).
Hypothesis Ln : length labels = n.
Let L0 : length (g_kinds labels) = n. Proof. rewrite g_kinds_length. auto. Qed.
Lemma g_lagrange_correct : forall x L lam, weights_nonneg labels given -> length x = n -> 0 < L -> 0 <= lam ->
  exists p, g_lagrange_prox false labels given x L lam = Ok p /\ is_unique_argmin n (prox_objective L x (gmode (gfun false labels given) (Lagrange lam))) p.
Proof.
  intros x L lam Hw Lx HL Hl. pose proof (mixed_lagrange_correct (g_kinds labels) (g_warr labels given) (g_valid _ _) (warr_forall (fun r => 0 <= r) _ _ Hw) x L lam) as M.
  rewrite L0, mix_gfun in M. apply M; auto. apply (group_no_nan _ [] (g_only labels)).
Qed.
Lemma g_dual_bound_correct : forall x b, weights_nonneg labels given -> length x = n -> 0 <= b ->
  exists p, g_bound_prox true labels given x b = Ok p /\ is_proj n (gball (gfun true labels given) b) x p.
Proof.
  intros x b Hw Lx Hb. pose proof (mixed_dual_bound_correct (g_kinds labels) (g_warr labels given) (g_valid _ _) (warr_forall (fun r => 0 <= r) _ _ Hw) x b) as M.
  rewrite L0, mix'_gfun in M by auto. apply M; auto. apply (group_no_nan _ [] (g_only labels)).
Qed.
Lemma g_bound_correct : forall x b, labels <> [] -> weights_range labels given -> length x = n -> 0 <= b -> 0 < b \/ some_weight labels given ->
  exists p, g_bound_prox false labels given x b = Ok p /\ is_proj n (gball (gfun false labels given) b) x p.
Proof.
  intros x b Hne Hw Lx Hb Hp. pose proof (group_bound_correct (g_kinds labels) (g_warr labels given) (g_valid _ _) (warr_forall (fun r => 0 <= r) _ _ (range_nonneg _ _ Hw))
    (g_only labels) (warr_pos _ _ Hne) (warr_forall wok _ _ Hw) x b) as M.
  rewrite L0, mix_gfun in M. apply M; auto. destruct Hp; auto. right. apply some_warr. auto.
Qed.
Lemma g_dual_lagrange_correct : forall x L lam, labels <> [] -> weights_range labels given -> length x = n -> 0 < L -> 0 <= lam -> 0 < lam \/ some_weight labels given ->
  exists p, g_lagrange_prox true labels given x L lam = Ok p /\ is_unique_argmin n (prox_objective L x (gmode (gfun true labels given) (Lagrange lam))) p.
Proof.
  intros x L lam Hne Hw Lx HL Hl Hp. pose proof (group_dual_lagrange_correct (g_kinds labels) (g_warr labels given) (g_valid _ _) (warr_forall (fun r => 0 <= r) _ _ (range_nonneg _ _ Hw))
    (g_only labels) (warr_pos _ _ Hne) (warr_forall wok _ _ Hw) x L lam) as M.
  rewrite L0, mix'_gfun in M by (apply range_nonneg; auto). apply M; auto. destruct Hp; auto. right. apply some_warr. auto.
Qed.
End Methods.

Theorem gatom_proximal_correct : forall n a m p, gatom_wf n a m -> gprox_legal a m -> q_shape n p ->
  0 < coef (b_quadratic (m_base (g_moded a))) + coef p -> some_array (m_base (g_moded a)) p ->
  exists v, gatom_proximal a (AQuad p) = Ok v /\ prox_spec n (gmode (gfun (g_dual a) (g_groups a) (g_weights a)) m) (m_base (g_moded a)) p v.
Proof.
  intros n a m p (Ln & Hm & Hw) Hleg Hp HL Hv. unfold gatom_proximal. apply moded_proximal_correct; auto.
  destruct Hm as (_ & _ & Hm & _). unfold gprox_legal in Hleg. destruct (g_dual a), m as [lam|b]; simpl in Hm; intros x L Lx HL'.
  - destruct Hleg as (H1 & H2 & H3). apply g_dual_lagrange_correct; auto.
  - apply g_dual_bound_correct; auto.
  - apply g_lagrange_correct; auto.
  - destruct Hleg as (H1 & H2 & H3). apply g_bound_correct; auto.
Qed.

(** Conjugates *)
Lemma group_weight_filled : forall labels given g, In g labels -> group_weight (filled given labels) labels g = group_weight given labels g.
Proof.
  intros labels given g Hg. unfold group_weight at 1. unfold filled. assert (E : existsb (Z.eqb g) labels = true) by (apply existsb_exists; exists g; split; auto; apply Z.eqb_refl).
  rewrite E. auto.
Qed.
Lemma gfun_filled : forall dual labels given, gfun dual labels (filled given labels) = gfun dual labels given.
Proof.
  intros dual labels given. apply functional_extensionality. intros x. unfold gfun, glasso, glasso_dual. destruct dual; f_equal; apply map_ext_in; intros g Hg; apply nodup_In in Hg; rewrite group_weight_filled; auto.
Qed.
Lemma nonneg_filled : forall labels given, weights_nonneg labels given -> weights_nonneg labels (filled given labels).
Proof. intros labels given H g Hg. rewrite group_weight_filled by auto. auto. Qed.
Theorem gatom_conjugate_correct : forall n a m, gatom_wf n a m -> coef (b_quadratic (m_base (g_moded a))) = 0 ->
  exists e, gatom_conjugate a = Some (Ok e) /\ g_dual e = negb (g_dual a) /\ g_groups e = g_groups a /\ gatom_wf n e (dual_mode m) /\
    (forall u, length u = n -> is_fenchel n (moded_doc n (gfun (g_dual a) (g_groups a) (g_weights a)) (g_moded a) m) u
                                             (moded_doc n (gfun (g_dual e) (g_groups e) (g_weights e)) (g_moded e) (dual_mode m) u)) /\
    exists f, gatom_conjugate e = Some (Ok f) /\ g_dual f = g_dual a /\ g_groups f = g_groups a /\ gatom_wf n f m /\
      forall v, length v = n -> moded_doc n (gfun (g_dual f) (g_groups f) (g_weights f)) (g_moded f) m v = moded_doc n (gfun (g_dual a) (g_groups a) (g_weights a)) (g_moded a) m v.
Proof.
  intros n [dual labels given md] m (Ln & Hm & Hw) Hc. cbn [g_dual g_groups g_weights g_moded] in *.
  destruct (gfun_polar labels given n Ln Hw) as [P1 P2].
  destruct (moded_conjugate_correct n (gfun dual labels given) (gfun (negb dual) labels given) md m Hm Hc) as (d & Ed & Wd & Fd & e & Ee & We & Fe); [destruct dual; auto|].
  unfold gatom_conjugate. cbn [g_dual g_groups g_weights g_moded]. rewrite Ed. cbn [rmap rbind].
  eexists. split; [reflexivity|]. cbn [g_dual g_groups g_weights g_moded]. split; auto. split; auto. split; [split; auto; split; auto; apply nonneg_filled; auto|].
  split; [rewrite gfun_filled; auto|]. rewrite Ee. cbn [rmap rbind]. eexists. split; [reflexivity|]. cbn [g_dual g_groups g_weights g_moded]. rewrite negb_involutive. split; auto. split; auto.
  split; [split; auto; split; auto; do 2 apply nonneg_filled; auto|]. rewrite !gfun_filled. auto.
Qed.

(** Values *)
Lemma g_value_primal : forall labels given x, length x = length labels -> mixed_seminorm (g_kinds labels) (g_warr labels given) x false = gfun false labels given x.
Proof.
  intros labels given x Lx. unfold mixed_seminorm. rewrite !(kpick_none _ [] (g_only labels)) by auto. cbn [andb existsb vabs map].
  rewrite <- mix_gfun. rewrite mix_group_value; [|apply g_valid|apply g_only|rewrite g_kinds_length; auto]. rewrite <- vmul_norms_rsum; [|apply g_valid|rewrite g_kinds_length; auto].
  f_equal. unfold vsum at 1 2. cbn [fold_right]. lra.
Qed.
Lemma g_seminorm_primal : forall labels given x lam, length x = length labels -> g_seminorm false labels given x lam = Ok (ext_scale lam (gfun false labels given x)).
Proof. intros. unfold g_seminorm. rewrite g_value_primal by auto. auto. Qed.
Lemma group_norms_map : forall labels given x, length x = length labels ->
  group_norms (g_kinds labels) (length (g_warr labels given)) x = map (fun g => norm (block labels g x)) (g_ids labels).
Proof.
  intros labels given x Lx. assert (Lw : length (g_warr labels given) = length (g_ids labels)) by apply map_length.
  apply (nth_ext_R _ _); [rewrite group_norms_length, map_length; auto|]. rewrite group_norms_length, Lw. intros k Hk.
  rewrite <- Lw. rewrite (group_norms_nth (length (g_warr labels given))); [|apply g_valid|rewrite Lw; auto|rewrite g_kinds_length; auto].
  unfold g_warr. rewrite g_cls by auto. rewrite (nth_indep (map _ (g_ids labels)) 0 (norm (block labels 0%Z x))) by (rewrite map_length; auto).
  rewrite (map_nth (fun g => norm (block labels g x))). auto.
Qed.
Lemma fold_omax : forall (f : Z -> R) (w : Z -> R) l v, (forall g, In g l -> 0 < w g /\ 0 <= f g) -> (l <> [] \/ v <> None) -> (forall r, v = Some r -> 0 <= r) ->
  fold_left (fun v p => if Rlt_dec 0 (fst p) then omax v (snd p / fst p) else v) (combine (map w l) (map f l)) v
  = Some (match v with None => max_list 0 (map (fun g => f g / w g) l) | Some r => Rmax r (max_list 0 (map (fun g => f g / w g) l)) end).
Proof.
  intros f w. induction l as [|g l IH]; intros v H Hne Hv.
  - destruct Hne as [|Hne]; [congruence|]. destruct v as [r|]; [|congruence]. simpl. rewrite Rmax_left; auto.
  - cbn [map combine fold_left fst snd max_list]. destruct (H g (or_introl eq_refl)) as [Hg1 Hg2]. destruct (Rlt_dec 0 (w g)); [|tauto].
    assert (0 <= f g / w g) by (apply Rmult_le_pos; auto; apply Rlt_le, Rinv_0_lt_compat; auto).
    rewrite IH; [|intros; apply H; right; auto|right; discriminate|].
    + unfold omax. destruct v as [r1|]; auto. f_equal. unfold Rmax. repeat destruct (Rle_dec _ _); lra.
    + intros r0 E. unfold omax in E. injection E as <-. destruct v as [r1|]; auto. apply Rle_trans with r1; auto. apply Rmax_l.
Qed.
Lemma ext_maximum_fin : forall l, ext_maximum (map Fin l) = Fin (max_list 0 l).
Proof. induction l as [|a l IH]; auto. cbn [map max_list]. unfold ext_maximum in *. cbn [fold_right]. rewrite IH. auto. Qed.
Lemma g_value_dual : forall labels given x, length x = length labels -> labels <> [] -> (forall g, In g labels -> 0 < group_weight given labels g) ->
  exists r, mixed_dual_seminorm (g_kinds labels) (g_warr labels given) x = Some r /\ gfun true labels given x = Fin r /\ 0 <= r.
Proof.
  intros labels given x Lx Hne Hw. unfold mixed_dual_seminorm. rewrite !(kpick_none _ [] (g_only labels)) by auto. cbn [vabs map fold_left].
  rewrite group_norms_map by auto. rewrite warr_map.
  rewrite fold_omax.
  - eexists. split; [reflexivity|]. assert (E : gfun true labels given x = Fin (max_list 0 (map (fun g => norm (block labels g x) / group_weight given labels g) (g_ids labels)))).
    { rewrite <- ext_maximum_fin, map_map. unfold gfun, glasso_dual. rewrite <- (ext_max_perm _ _ (Permutation_map _ (ids_perm labels))). f_equal. apply map_ext_in. intros g Hg.
      apply (proj1 (sorted_unique_in g labels)) in Hg. unfold group_dual_term. rewrite ell2_norm. destruct (Rlt_dec 0 (group_weight given labels g)) as [|N]; auto. destruct N. auto. }
    split; auto. apply max_list_ge_d.
  - intros g Hg. split; [apply Hw; apply sorted_unique_in; auto|apply norm_nonneg].
  - left. intros C. pose proof (warr_pos labels given Hne) as P. rewrite warr_map, map_length, C in P. simpl in P. lia.
  - discriminate.
Qed.
Theorem gatom_objective_correct : forall n a m x, gatom_wf n a m -> value_legal a -> length x = n ->
  gatom_objective a x true = Ok (moded_doc n (gfun (g_dual a) (g_groups a) (g_weights a)) (g_moded a) m x).
Proof.
  intros n [dual labels given md] m x (Ln & Hm & Hw) Hv Lx. unfold gatom_objective, value_legal in *. cbn [g_dual g_groups g_weights g_moded] in *. apply moded_objective_correct; auto.
  intros y Ly. destruct dual.
  - destruct Hv as [Hne Hv]. destruct (g_value_dual labels given y) as (r & E1 & E2 & Hr); auto; [congruence|]. destruct m as [lam|b].
    + unfold g_seminorm. rewrite E1, E2. auto.
    + unfold g_constraint, gmode. rewrite E1, E2. rewrite Rmult_1_l. auto.
  - destruct m as [lam|b].
    + apply g_seminorm_primal. congruence.
    + unfold g_constraint, gmode. rewrite g_value_primal by congruence. destruct (gfun false labels given y); auto. rewrite Rmult_1_l. auto.
Qed.
Lemma zpick_block : forall g labels x, zpick g labels x = block labels g x.
Proof. intros g. unfold block. induction labels as [|l labels IH]; intros [|b x]; auto. cbn [zpick pick]. rewrite Z.eqb_sym, IH. auto. Qed.
Theorem g_terms_correct : forall labels given x, weights_nonneg labels given ->
  ext_sum (g_terms false labels given x) = gfun false labels given x /\ ext_maximum (g_terms true labels given x) = gfun true labels given x /\
  forall dual k, (k < length (g_ids labels))%nat -> exists g, In g labels /\
    nth k (g_terms dual labels given x) PInf = if dual then group_dual_term (group_weight given labels g) (block labels g x) else group_term (group_weight given labels g) (block labels g x).
Proof.
  intros labels given x Hw.
  assert (E1 : g_terms false labels given x = map (fun g => group_term (group_weight given labels g) (block labels g x)) (g_ids labels)).
  { apply map_ext. intros g. unfold group_term. rewrite zpick_block, ell2_norm. f_equal. change (weight_of given labels g) with (group_weight given labels g). ring. }
  assert (E2 : g_terms true labels given x = map (fun g => group_dual_term (group_weight given labels g) (block labels g x)) (g_ids labels)).
  { apply map_ext. intros g. unfold group_dual_term. rewrite zpick_block, ell2_norm. change (weight_of given labels g) with (group_weight given labels g).
    destruct (Rlt_dec 0 (group_weight given labels g)); auto. pose proof (norm_nonneg (block labels g x)). destruct (Rlt_dec 0 (norm (block labels g x))), (Req_EM_T (norm (block labels g x)) 0); auto; lra. }
  split; [|split].
  - rewrite E1. apply ext_sum_perm, Permutation_map, ids_perm.
  - rewrite E2. apply ext_max_perm, Permutation_map, ids_perm.
  - intros dual k Hk. exists (nth k (g_ids labels) 0%Z). split; [apply sorted_unique_in, nth_In; auto|]. destruct dual; [rewrite E2|rewrite E1].
    + rewrite (nth_indep _ PInf (group_dual_term (group_weight given labels 0%Z) (block labels 0%Z x))) by (rewrite map_length; auto). apply (map_nth (fun g => group_dual_term (group_weight given labels g) (block labels g x))).
    + rewrite (nth_indep _ PInf (group_term (group_weight given labels 0%Z) (block labels 0%Z x))) by (rewrite map_length; auto). apply (map_nth (fun g => group_term (group_weight given labels g) (block labels g x))).
Qed.
