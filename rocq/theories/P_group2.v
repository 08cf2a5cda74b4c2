(** Proofs about group lasso cones and mixed lasso objects. *)
From Coq Require Import Reals List Lra Lia Psatz Bool Permutation ZArith Sorted FunctionalExtensionality.
From Verif Require Import Vec Spec M_quad M_prox M_semi SpecAtom M_shift SpecBase SpecMode M_mode SpecModed SpecWeighted SpecPart SpecGroup M_slope M_mixed M_group M_mixed_atom SpecGatom
  P_quad P_pl P_prox P_feas P_semi P_conj P_shift P_gauge P_slope P_part P_mixed P_kinds P_group.
Import ListNotations.
Local Open Scope R_scope.

(** ** Cones *)
Lemma gfun_even : forall dual labels given n, even_gauge n (gfun dual labels given).
Proof.
  intros dual labels given n x _. assert (B : forall g, block labels g (vopp x) = vopp (block labels g x)) by (intros; apply pick_map).
  assert (N : forall g, ell2 (block labels g (vopp x)) = ell2 (block labels g x)) by (intros; rewrite B, !ell2_norm; apply norm_opp).
  unfold gfun, glasso, glasso_dual, group_term, group_dual_term. destruct dual; f_equal; apply map_ext; intros g; rewrite N; auto.
Qed.
Definition gcone_set (k : gcclass) (labels : list Z) (given : Z -> option R) : vec -> Prop :=
  match k with
  | GEpi => epi (gfun false labels given)
  | GEpiPolar => epi_neg (gfun true labels given)
  | GDualEpi => epi (gfun true labels given)
  | GDualEpiPolar => epi_neg (gfun false labels given)
  end.
Lemma gcone_fun_cases : forall k labels given x, gcone_fun k labels given x = Fin 0 /\ gcone_set k labels given x \/ gcone_fun k labels given x = PInf /\ ~ gcone_set k labels given x.
Proof. intros [| | |] labels given x; (apply epi_fun_cases || apply epi_neg_fun_cases). Qed.
Lemma regular_range : forall labels given, weights_regular labels given -> weights_range labels given.
Proof. intros labels given H g Hg. right. auto. Qed.
Lemma regular_nonneg : forall labels given, weights_regular labels given -> weights_nonneg labels given.
Proof. intros. apply range_nonneg, regular_range. auto. Qed.
Theorem gcone_prox_correct : forall k labels given n x, S (length labels) = n -> labels <> [] -> weights_regular labels given -> length x = n ->
  exists p, gcone_prox k labels given x = Ok p /\ ccert n (gcone_set k labels given) x p.
Proof.
  intros k labels given n x <- Hne Hw Lx. assert (Hn := regular_nonneg _ _ Hw).
  assert (EPI : forall y, length y = S (length labels) -> exists p, mixed_epigraph (g_kinds labels) (g_warr labels given) y = Ok p /\ ccert (S (length labels)) (epi (gfun false labels given)) y p).
  { intros y Ly. pose proof (group_epigraph_correct (g_kinds labels) (g_warr labels given) (g_valid _ _) (warr_forall (fun r => 0 <= r) _ _ Hn) (g_only labels) (warr_pos _ _ Hne)) as M.
    specialize (M (warr_forall _ _ _ Hw) y). rewrite g_kinds_length, mix_gfun in M. auto. }
  destruct (gfun_polar labels given _ eq_refl Hn) as [P1 P2].
  destruct k; unfold gcone_prox; cbv zeta.
  - apply EPI; auto.
  - destruct (EPI x Lx) as (p & -> & C). eexists. split; [reflexivity|]. apply epi_moreau with (h := gfun false labels given); auto.
  - destruct (EPI (vopp x)) as (p & -> & C); [vlen|]. eexists. split; [reflexivity|]. apply epi_dual_cert with (h := gfun false labels given); auto using gfun_even.
  - destruct (EPI (vopp x)) as (p & -> & C); [vlen|]. eexists. split; [reflexivity|]. apply epi_neg_cert; auto using gfun_even.
Qed.
Theorem gcone_proximal_correct : forall n c p, gcone_wf n c -> q_shape n p -> 0 < coef (b_quadratic (gc_base c)) + coef p -> some_array (gc_base c) p ->
  exists v, gcone_proximal c (AQuad p) = Ok v /\ prox_spec n (gcone_fun (gc_class c) (gc_groups c) (gc_weights c)) (gc_base c) p v.
Proof.
  intros n c p (Ln & Hne & Hw & Hb) Hp HL Hv. unfold gcone_proximal. apply shifted_prox_correct; auto. intros x Lx.
  destruct (gcone_prox_correct (gc_class c) (gc_groups c) (gc_weights c) n x Ln Hne Hw Lx) as (e & Ee & C). exists e. split; auto.
  apply indicator_argmin with (S := gcone_set (gc_class c) (gc_groups c) (gc_weights c)); auto using gcone_fun_cases, ccert_proj.
Qed.
Lemma dot_opp_opp : forall u x, dot (vopp u) (vopp x) = dot u x.
Proof. intros. rewrite dot_opp_l, dot_opp_r. lra. Qed.
Lemma fenchel_opp : forall n f u r, is_fenchel n f (vopp u) r -> is_fenchel n (fun x => f (vopp x)) u r.
Proof.
  intros n f u r H. destruct r as [s|]; simpl in *.
  - destruct H as [H1 H2]. split.
    + intros x t Lx Ex. rewrite <- dot_opp_opp. apply (H1 (vopp x)); [vlen|auto].
    + intros e He. destruct (H2 e He) as (x & t & Lx & Ex & Hd). exists (vopp x), t. split; [vlen|]. rewrite vopp_vopp. split; auto. rewrite <- dot_opp_opp, vopp_vopp. auto.
  - intros M. destruct (H M) as (x & t & Lx & Ex & Hd). exists (vopp x), t. split; [vlen|]. rewrite vopp_vopp. split; auto. rewrite <- dot_opp_opp, vopp_vopp. auto.
Qed.
Lemma epi_fun_opp : forall n h x, even_gauge n h -> length x = S n -> epi_fun h (vopp x) = epi_neg_fun h x /\ epi_neg_fun h (vopp x) = epi_fun h x.
Proof.
  intros n h x He Lx. destruct (split_app1 n x Lx) as (v & t & -> & Lv). unfold epi_fun, epi_neg_fun. rewrite P_cones.vopp_app. cbn [vopp map].
  rewrite !removelast_app1, !last_app1. rewrite He by auto. rewrite Ropp_involutive. auto.
Qed.
Lemma fenchel_ext : forall n f g u r, (forall x, length x = n -> f x = g x) -> is_fenchel n f u r -> is_fenchel n g u r.
Proof.
  intros n f g u r E H. destruct r as [s|]; simpl in *.
  - destruct H as [H1 H2]. split.
    + intros x t Lx Ex. apply H1; auto. rewrite E; auto.
    + intros e He. destruct (H2 e He) as (x & t & Lx & Ex & Hd). exists x, t. rewrite <- E; auto.
  - intros M. destruct (H M) as (x & t & Lx & Ex & Hd). exists x, t. rewrite <- E; auto.
Qed.
Lemma gcone_fenchel : forall k labels given n u, S (length labels) = n -> weights_nonneg labels given -> length u = n ->
  is_fenchel n (gcone_fun k labels given) u (gcone_fun (gcone_polar k) labels given u).
Proof.
  intros k labels given n u <- Hw Lu. destruct (gfun_polar labels given _ eq_refl Hw) as [P1 P2].
  assert (NEG : forall d, polar_pair (length labels) (gfun d labels given) (gfun (negb d) labels given) ->
    is_fenchel (S (length labels)) (epi_neg_fun (gfun d labels given)) u (epi_fun (gfun (negb d) labels given) u)).
  { intros d P. destruct (epi_fun_opp _ _ u (gfun_even (negb d) labels given _) Lu) as [_ <-].
    apply fenchel_ext with (f := fun x => epi_fun (gfun d labels given) (vopp x)).
    - intros x Lx. apply (epi_fun_opp _ _ x (gfun_even d labels given _) Lx).
    - apply fenchel_opp. apply epi_fenchel; auto. vlen. }
  destruct k; cbn [gcone_fun gcone_polar].
  - apply epi_fenchel; auto.
  - apply (NEG true); auto.
  - apply epi_fenchel; auto.
  - apply (NEG false); auto.
Qed.
Theorem gcone_conjugate_correct : forall n c, gcone_wf n c -> coef (b_quadratic (gc_base c)) = 0 ->
  exists d, gcone_conjugate c = Some d /\ gc_class d = gcone_polar (gc_class c) /\ gc_groups d = gc_groups c /\ gcone_wf n d /\
    (forall u, length u = n -> is_fenchel n (base_doc n (gcone_fun (gc_class c) (gc_groups c) (gc_weights c)) (gc_base c)) u
                                             (base_doc n (gcone_fun (gc_class d) (gc_groups d) (gc_weights d)) (gc_base d) u)) /\
    exists e, gcone_conjugate d = Some e /\ gc_class e = gc_class c /\ gc_groups e = gc_groups c /\ gcone_wf n e /\
      forall v, length v = n -> base_doc n (gcone_fun (gc_class e) (gc_groups e) (gc_weights e)) (gc_base e) v = base_doc n (gcone_fun (gc_class c) (gc_groups c) (gc_weights c)) (gc_base c) v.
Proof.
  intros n [k labels given b] (Ln & Hne & Hw & Hb) Hc. cbn [gc_class gc_groups gc_weights gc_base] in *.
  assert (FF : forall k' g', gcone_fun k' labels (filled g' labels) = gcone_fun k' labels g') by (intros [| | |] g'; cbn [gcone_fun]; rewrite gfun_filled; auto).
  assert (RF : forall g', weights_regular labels g' -> weights_regular labels (filled g' labels)) by (intros g' H g Hg; rewrite group_weight_filled; auto).
  assert (PP : gcone_polar (gcone_polar k) = k) by (destruct k; auto).
  destruct (conjugate_base_fenchel n (gcone_fun k labels given) (gcone_fun (gcone_polar k) labels given) b Hb Hc) as (d & Ed & Wd & Fd).
  { intros u Lu. apply gcone_fenchel; auto. apply regular_nonneg; auto. }
  destruct (conjugate_base_twice n (gcone_fun k labels given) b Hb Hc) as (d' & e & E1 & E2 & We & He).
  assert (d' = d) by congruence. subst d'. unfold gcone_conjugate. cbn [gc_class gc_groups gc_weights gc_base]. rewrite Ed. cbn [option_map].
  eexists. split; [reflexivity|]. cbn [gc_class gc_groups gc_weights gc_base]. split; auto. split; auto. split; [unfold gcone_wf; cbn [gc_class gc_groups gc_weights gc_base]; auto|]. rewrite FF. split; [exact Fd|].
  rewrite E2. cbn [option_map]. eexists. split; [reflexivity|]. cbn [gc_class gc_groups gc_weights gc_base]. rewrite PP. split; auto. split; auto. split; [unfold gcone_wf; cbn [gc_class gc_groups gc_weights gc_base]; auto 6|]. rewrite !FF. auto.
Qed.
(** Feasibility tests *)
Lemma g_seminorm_any : forall dual labels given x, length x = length labels -> labels <> [] -> weights_regular labels given ->
  exists r, g_seminorm dual labels given x 1 = Ok (Fin r) /\ gfun dual labels given x = Fin r /\ 0 <= r.
Proof.
  intros dual labels given x Lx Hne Hw. destruct dual.
  - destruct (g_value_dual labels given x Lx Hne) as (r & E1 & E2 & Hr); [intros g Hg; pose proof (Hw g Hg); pose proof e20; lra|].
    exists r. unfold g_seminorm. rewrite E1, Rmult_1_l. auto.
  - rewrite g_seminorm_primal by auto. destruct (gfun_polar labels given _ eq_refl (regular_nonneg _ _ Hw)) as [P1 _].
    assert (E : exists r, gfun false labels given x = Fin r).
    { rewrite <- mix_gfun. rewrite mix_group_value; [eauto|apply g_valid|apply g_only|rewrite g_kinds_length; auto]. }
    destruct E as (r & E). exists r. rewrite E. simpl. rewrite Rmult_1_l. split; auto. split; auto. apply (ga_nonneg _ _ (po_gauge _ _ _ P1) x); auto.
Qed.
Theorem gcone_feasibility : forall k labels given n x, S (length labels) = n -> labels <> [] -> weights_regular labels given -> length x = n ->
  (gcone_set k labels given x -> gcone_constraint k labels given x = Ok (Fin 0)) /\
  (gcone_constraint k labels given x = Ok (Fin 0) -> relaxed k labels given x) /\
  (gcone_constraint k labels given x = Ok (Fin 0) \/ gcone_constraint k labels given x = Ok PInf).
Proof.
  intros k labels given n x <- Hne Hw Lx. destruct (split_app1 _ x Lx) as (v & t & -> & Lv).
  set (t' := match k with GEpi | GDualEpi => t | _ => - t end). set (dual := match k with GEpi | GDualEpiPolar => false | _ => true end).
  destruct (g_seminorm_any dual labels given v Lv Hne Hw) as (r & E1 & E2 & Hr).
  assert (C : gcone_constraint k labels given (v ++ [t]) = Ok (if Rle_dec r ((1 + tol) * t') then Fin 0 else PInf)).
  { unfold gcone_constraint. destruct (v ++ [t]) as [|z0 z] eqn:Ez; [destruct v; discriminate|]. rewrite <- Ez. rewrite removelast_app1, last_app1. fold dual. rewrite E1. cbn [rmap rbind]. auto. }
  rewrite C. clear C. pose proof tol_pos as T.
  assert (SET : gcone_set k labels given (v ++ [t]) <-> r <= t').
  { destruct k; cbn [gcone_set]; (rewrite epi_app || rewrite epi_neg_app); unfold dual in E2; rewrite E2; simpl; tauto. }
  assert (REL : relaxed k labels given (v ++ [t]) <-> r <= (1 + tol) * t').
  { unfold relaxed. rewrite removelast_app1, last_app1. fold dual. rewrite E2. cbn [ext_le]. change (/ 10 ^ 5) with tol. tauto. }
  rewrite SET, REL. destruct (Rle_dec r ((1 + tol) * t')) as [L|L].
  - auto.
  - split; [intros H; exfalso; apply L; nra|]. split; [discriminate|auto].
Qed.

(** ** Mixed lasso *)
Section MixedLabels.
Variables (labels ids : list Z).
Hypothesis En : enumerates ids labels.
Lemma en_nodup : NoDup ids.
Proof. eapply Permutation_NoDup; [apply Permutation_sym; exact En|]. apply NoDup_nodup. Qed.
Lemma en_in : forall l, In l labels -> reserved l = false -> In l ids.
Proof. intros l Hl Hr. eapply Permutation_in; [apply Permutation_sym; exact En|]. apply nodup_In. apply filter_In. split; auto. rewrite Hr. auto. Qed.
Lemma en_not_reserved : forall k, (k < length ids)%nat -> reserved (nth k ids 0%Z) = false.
Proof.
  intros k Hk. assert (I : In (nth k ids 0%Z) (mixed_groups labels)) by (eapply Permutation_in; [exact En|apply nth_In; auto]).
  apply nodup_In, filter_In in I. destruct I as [_ I]. destruct (reserved (nth k ids 0%Z)); [discriminate|auto].
Qed.
Lemma kind_group : forall l, reserved l = false -> kind_of ids l = MGroup (index_of l ids).
Proof. intros l H. unfold reserved in H. unfold kind_of. destruct (Z.eqb l (-1)), (Z.eqb l (-2)), (Z.eqb l (-3)), (Z.eqb l (-4)); try discriminate; auto. Qed.
Lemma kind_reserved : forall l, reserved l = true -> (l = (-1)%Z /\ kind_of ids l = MUnpen) \/ (l = (-2)%Z /\ kind_of ids l = ML1) \/ (l = (-3)%Z /\ kind_of ids l = MPos) \/ (l = (-4)%Z /\ kind_of ids l = MNonneg).
Proof.
  intros l H. unfold reserved in H. unfold kind_of.
  destruct (Z.eqb_spec l (-1)); [auto|]. destruct (Z.eqb_spec l (-2)); [auto|]. destruct (Z.eqb_spec l (-3)); [auto|]. destruct (Z.eqb_spec l (-4)); [auto 8|]. discriminate.
Qed.
Lemma ml_valid : forall q, q = length ids -> Forall (kvalid q) (ml_kinds labels ids).
Proof.
  intros q ->. apply Forall_forall. intros k Hk. unfold ml_kinds in Hk. apply in_map_iff in Hk. destruct Hk as (l & <- & Hl). destruct (reserved l) eqn:Er.
  - destruct (kind_reserved l Er) as [[_ ->]|[[_ ->]|[[_ ->]|[_ ->]]]]; exact I.
  - rewrite kind_group by auto. simpl. apply index_of_in. apply en_in; auto.
Qed.
Lemma ml_cls_group : forall q k x, q = length ids -> (k < q)%nat -> cls (map (kidx q) (ml_kinds labels ids)) k x = block labels (nth k ids 0%Z) x.
Proof.
  intros q k x Eq Hk. unfold cls, ml_kinds. rewrite map_map, pick_labels. unfold block. apply pick_ext_f. intros l Hl.
  assert (NR := en_not_reserved k ltac:(lia)). destruct (reserved l) eqn:Er.
  - transitivity false.
    + apply Nat.eqb_neq. destruct (kind_reserved l Er) as [[_ ->]|[[_ ->]|[[_ ->]|[_ ->]]]]; cbn [kidx]; lia.
    + symmetry. apply Z.eqb_neq. intros C. rewrite C in NR. congruence.
  - rewrite kind_group by auto. cbn [kidx]. apply index_of_eqb; auto using en_nodup, en_in. lia.
Qed.
Lemma ml_cls_special : forall q x, q = length ids ->
  cls (map (kidx q) (ml_kinds labels ids)) q x = block labels (-2) x /\ cls (map (kidx q) (ml_kinds labels ids)) (q + 1) x = block labels (-1) x /\
  cls (map (kidx q) (ml_kinds labels ids)) (q + 2) x = block labels (-3) x /\ cls (map (kidx q) (ml_kinds labels ids)) (q + 3) x = block labels (-4) x.
Proof.
  intros q x Eq. unfold cls, ml_kinds, block. rewrite map_map, !pick_labels.
  assert (K : forall l, In l labels -> Nat.eqb q (kidx q (kind_of ids l)) = Z.eqb (-2) l /\ Nat.eqb (q + 1) (kidx q (kind_of ids l)) = Z.eqb (-1) l /\
    Nat.eqb (q + 2) (kidx q (kind_of ids l)) = Z.eqb (-3) l /\ Nat.eqb (q + 3) (kidx q (kind_of ids l)) = Z.eqb (-4) l).
  { intros l Hl. refine (conj _ (conj _ (conj _ _))); apply Bool.eq_iff_eq_true; rewrite Nat.eqb_eq, Z.eqb_eq; (destruct (reserved l) eqn:Er;
    [destruct (kind_reserved l Er) as [[E ->]|[[E ->]|[[E ->]|[E ->]]]]; subst l; cbn [kidx]; lia
    |rewrite kind_group by auto; cbn [kidx]; destruct (index_of_in l ids (en_in l Hl Er)) as [B _];
     assert (l <> (-1)%Z /\ l <> (-2)%Z /\ l <> (-3)%Z /\ l <> (-4)%Z) by (repeat split; intros C; subst l; discriminate); lia]). }
  repeat split; apply pick_ext_f; intros l Hl; apply (K l Hl).
Qed.
End MixedLabels.
Lemma ml_mix : forall labels ids (w : Z -> R) x, enumerates ids labels -> mix (ml_kinds labels ids) (map w ids) x = mixed_pen labels w x.
Proof.
  intros labels ids w x En. assert (Eq : length (map w ids) = length ids) by apply map_length.
  unfold ml_kinds. rewrite mix_split by (intros; apply (ml_cls_group labels ids En); auto; lia).
  destruct (ml_cls_special labels ids En _ x Eq) as (C0 & C1 & C2 & C3). unfold ml_kinds in *. rewrite C0, C2, C3.
  unfold mixed_pen. rewrite ext_sum_app. rewrite <- (ext_sum_perm _ _ (Permutation_map (fun g => group_term (w g) (block labels g x)) En)).
  rewrite ext_add_comm. set (S0 := ext_sum (map _ ids)). cbn [ext_sum fold_right doc_seminorm]. unfold nn_ind.
  destruct S0 as [s|]; destruct (doc_seminorm CConPosPart (block labels (-3) x)) as [t|] eqn:Et; cbn [doc_seminorm] in *; rewrite ?Et; destruct (nonneg_dec (block labels (-4) x)); simpl; auto.
  f_equal. lra.
Qed.
Lemma ml_mix' : forall labels ids (w : Z -> R) x, enumerates ids labels -> (forall g, In g (mixed_groups labels) -> 0 <= w g) -> mix' (ml_kinds labels ids) (map w ids) x = mixed_pen_dual labels w x.
Proof.
  intros labels ids w x En Hw. assert (Eq : length (map w ids) = length ids) by apply map_length.
  assert (Hw' : forall g, In g ids -> 0 <= w g) by (intros g Hg; apply Hw; eapply Permutation_in; eauto).
  unfold ml_kinds. rewrite mix'_split by (auto; intros; apply (ml_cls_group labels ids En); auto; lia).
  destruct (ml_cls_special labels ids En _ x Eq) as (C0 & C1 & C2 & C3). unfold ml_kinds in *. rewrite C0, C1, C2, C3.
  unfold mixed_pen_dual. rewrite ext_max_app. rewrite <- (ext_max_perm _ _ (Permutation_map (fun g => group_dual_term (w g) (block labels g x)) En)).
  set (S0 := ext_maximum (map _ ids)). assert (P : pos_ext S0) by apply ext_maximum_nonneg. rewrite (ext_max_comm _ S0). cbn [ext_maximum fold_right doc_seminorm]. fold (zero_ind (block labels (-1) x)). fold (np_ind (block labels (-4) x)).
  assert (Z : forall e, e = Fin 0 \/ e = PInf -> ext_max e (Fin 0) = e) by (intros e [->| ->]; simpl; auto; f_equal; apply Rmax_left; lra).
  rewrite (Z (zero_ind _)) by (unfold zero_ind; destruct (zero_dec _); auto). rewrite !ext_max_assoc. f_equal. f_equal. rewrite <- ext_max_assoc, ext_max_comm, <- ext_max_assoc. rewrite ext_max_comm. auto.
Qed.

Lemma mfun_ok : forall labels ids given, enumerates ids labels -> (forall g, In g (mixed_groups labels) -> 0 <= group_weight given labels g) ->
  mix (ml_kinds labels ids) (ml_warr labels ids given) = mixed_pen labels (group_weight given labels) /\
  mix' (ml_kinds labels ids) (ml_warr labels ids given) = mixed_pen_dual labels (group_weight given labels).
Proof.
  intros labels ids given En Hw. assert (E : ml_warr labels ids given = map (group_weight given labels) ids) by auto. rewrite E.
  split; apply functional_extensionality; intros x; [apply ml_mix|apply ml_mix']; auto.
Qed.
Lemma ml_kinds_length : forall labels ids, length (ml_kinds labels ids) = length labels.
Proof. intros. apply map_length. Qed.
Lemma ml_weights_ok : forall labels ids given, enumerates ids labels -> (forall g, In g (mixed_groups labels) -> 0 <= group_weight given labels g) -> Forall (fun r => 0 <= r) (ml_warr labels ids given).
Proof. intros labels ids given En Hw. apply Forall_forall. intros r Hr. apply in_map_iff in Hr. destruct Hr as (g & <- & Hg). apply (Hw g). eapply Permutation_in; eauto. Qed.
Lemma ml_valid' : forall labels ids given, enumerates ids labels -> Forall (kvalid (length (ml_warr labels ids given))) (ml_kinds labels ids).
Proof. intros. apply ml_valid; auto. apply map_length. Qed.
Lemma mfun_polar : forall labels given, (forall g, In g (mixed_groups labels) -> 0 <= group_weight given labels g) ->
  polar_pair (length labels) (mixed_pen labels (group_weight given labels)) (mixed_pen_dual labels (group_weight given labels)) /\
  polar_pair (length labels) (mixed_pen_dual labels (group_weight given labels)) (mixed_pen labels (group_weight given labels)).
Proof.
  intros labels given Hw. assert (En : enumerates (mixed_groups labels) labels) by apply Permutation_refl.
  destruct (mfun_ok labels _ given En Hw) as [E1 E2]. rewrite <- E1, <- E2, <- (ml_kinds_length labels (mixed_groups labels)).
  split; [apply mix_polar|apply mix_polar_rev]; auto using ml_valid', ml_weights_ok.
Qed.
Lemma mprox_no_nan : forall labels ids par x, 0 < par \/ ~ In (-2)%Z labels -> no_nan par (ml_kinds labels ids) x.
Proof.
  intros labels ids par x [H|H]; [left; auto|right].
  assert (K : kpick is_l1 (ml_kinds labels ids) x = []).
  { revert x. induction labels as [|l labels IH]; intros [|a x]; auto. cbn [ml_kinds map kpick]. fold (ml_kinds labels ids).
    assert (E : is_l1 (kind_of ids l) = false).
    { unfold kind_of. destruct (Z.eqb l (-1)); auto. destruct (Z.eqb_spec l (-2)) as [C|]; [exfalso; apply H; left; auto|]. destruct (Z.eqb l (-3)), (Z.eqb l (-4)); auto. }
    rewrite E. apply IH. intros C. apply H. right. auto. }
  rewrite K. constructor.
Qed.
Theorem mlatom_proximal_correct : forall n a p, mlatom_wf n a -> mprox_legal a -> q_shape n p ->
  0 < coef (b_quadratic (ml_base a)) + coef p -> some_array (ml_base a) p ->
  exists v, mlatom_proximal a (AQuad p) = Ok v /\ prox_spec n (mfun (ml_dual a) (ml_labels a) (ml_weights a) (ml_par a)) (ml_base a) p v.
Proof.
  intros n [dual labels ids given par b] p (Ln & En & Hp & Hb & Hw) Hleg Hq HL Hs. unfold mprox_legal in Hleg. cbn [ml_dual ml_labels ml_ids ml_weights ml_par ml_base] in *.
  unfold mlatom_proximal. cbn [ml_dual ml_labels ml_ids ml_weights ml_par ml_base]. apply shifted_prox_correct; auto. intros x Lx. cbv zeta.
  destruct (mfun_ok labels ids given En Hw) as [E1 E2]. unfold mfun. rewrite <- E1, <- E2. assert (Lk := ml_kinds_length labels ids). destruct dual.
  - destruct (mixed_dual_bound_correct (ml_kinds labels ids) (ml_warr labels ids given) (ml_valid' _ _ _ En) (ml_weights_ok _ _ _ En Hw) x par) as (v & Ev & Hv); auto using mprox_no_nan; try lia.
    exists v. split; auto. apply gball_argmin; auto. rewrite <- Ln, <- Lk. auto.
  - destruct (mixed_lagrange_correct (ml_kinds labels ids) (ml_warr labels ids given) (ml_valid' _ _ _ En) (ml_weights_ok _ _ _ En Hw) x (coef (b_quadratic b) + coef p) par) as (v & Ev & Hv); auto using mprox_no_nan; try lia.
    exists v. split; auto. rewrite <- Ln, <- Lk. auto.
Qed.
Theorem mlatom_conjugate_correct : forall n a ids ids', mlatom_wf n a -> coef (b_quadratic (ml_base a)) = 0 -> enumerates ids (ml_labels a) -> enumerates ids' (ml_labels a) ->
  exists d, mlatom_conjugate ids a = Some d /\ ml_dual d = negb (ml_dual a) /\ ml_labels d = ml_labels a /\ mlatom_wf n d /\
    (forall u, length u = n -> is_fenchel n (base_doc n (mfun (ml_dual a) (ml_labels a) (ml_weights a) (ml_par a)) (ml_base a)) u
                                             (base_doc n (mfun (ml_dual d) (ml_labels d) (ml_weights d) (ml_par d)) (ml_base d) u)) /\
    exists e, mlatom_conjugate ids' d = Some e /\ ml_dual e = ml_dual a /\ ml_labels e = ml_labels a /\ mlatom_wf n e /\
      forall v, length v = n -> base_doc n (mfun (ml_dual e) (ml_labels e) (ml_weights e) (ml_par e)) (ml_base e) v = base_doc n (mfun (ml_dual a) (ml_labels a) (ml_weights a) (ml_par a)) (ml_base a) v.
Proof.
  intros n [dual labels ids0 given par b] ids ids' (Ln & En & Hp & Hb & Hw) Hc E1 E2. cbn [ml_dual ml_labels ml_ids ml_weights ml_par ml_base] in *.
  destruct (mfun_polar labels given Hw) as [P1 P2]. rewrite Ln in P1, P2.
  destruct (conjugate_base_fenchel n (mfun dual labels given par) (mfun (negb dual) labels given par) b Hb Hc) as (d & Ed & Wd & Fd).
  { intros u Lu. unfold mfun. destruct dual; cbn [negb].
    - apply (gauge_fenchel n _ _ (Bound par) u P2 Lu). exact Hp.
    - apply (gauge_fenchel n _ _ (Lagrange par) u P1 Lu). exact Hp. }
  destruct (conjugate_base_twice n (mfun dual labels given par) b Hb Hc) as (d' & e & E3 & E4 & We & He).
  assert (d' = d) by congruence. subst d'. unfold mlatom_conjugate. cbn [ml_dual ml_labels ml_ids ml_weights ml_par ml_base]. rewrite Ed. cbn [option_map].
  eexists. split; [reflexivity|]. cbn [ml_dual ml_labels ml_ids ml_weights ml_par ml_base]. split; auto. split; auto. split; [unfold mlatom_wf; cbn [ml_dual ml_labels ml_ids ml_weights ml_par ml_base]; auto 6|]. split; auto.
  rewrite E4. cbn [option_map]. eexists. split; [reflexivity|]. cbn [ml_dual ml_labels ml_ids ml_weights ml_par ml_base]. rewrite negb_involutive. split; auto. split; auto. split; [unfold mlatom_wf; cbn [ml_dual ml_labels ml_ids ml_weights ml_par ml_base]; auto 6|]. auto.
Qed.

(** The value of a mixed lasso object without offset, no feasibility test *)
Lemma kpick_block : forall (sel : kind -> bool) labels ids l, (forall l', In l' labels -> sel (kind_of ids l') = Z.eqb l l') -> forall x, kpick sel (ml_kinds labels ids) x = block labels l x.
Proof.
  intros sel labels ids l. induction labels as [|l0 labels IH]; intros H x; [destruct x; auto|]. destruct x as [|a x]; auto.
  cbn [ml_kinds map kpick]. unfold block. cbn [pick]. fold (ml_kinds labels ids). rewrite H by (left; auto). rewrite IH by (intros; apply H; right; auto). auto.
Qed.
Lemma nth_map_R' : forall (f : Z -> R) l k d d', (k < length l)%nat -> nth k (map f l) d' = f (nth k l d).
Proof. intros f l k d d' H. rewrite (nth_indep _ d' (f d)) by (rewrite map_length; auto). apply map_nth. Qed.
Lemma ml_norms : forall labels ids given x, enumerates ids labels -> length x = length labels ->
  vsum (vmul (ml_warr labels ids given) (group_norms (ml_kinds labels ids) (length (ml_warr labels ids given)) x)) = vsum (map (fun g => group_weight given labels g * norm (block labels g x)) ids).
Proof.
  intros labels ids given x En Lx. assert (Lw : length (ml_warr labels ids given) = length ids) by apply map_length. f_equal.
  apply (nth_ext_R _ _); [unfold vmul; rewrite vzip_length, map_length; rewrite ?group_norms_length; auto|].
  assert (Lv : length (vmul (ml_warr labels ids given) (group_norms (ml_kinds labels ids) (length (ml_warr labels ids given)) x)) = length ids) by (unfold vmul; rewrite vzip_length; rewrite ?group_norms_length; auto).
  rewrite Lv. intros k Hk. unfold vmul. rewrite (Vec.nth_vzip _ _ _ k 0 0 0) by (rewrite ?group_norms_length; auto; lia).
  rewrite (group_norms_nth (length (ml_warr labels ids given))); [|apply ml_valid'; auto|lia|rewrite ml_kinds_length; auto].
  rewrite (ml_cls_group labels ids En) by (auto; lia). rewrite (nth_map_R' _ _ k 0%Z 0) by auto. unfold ml_warr. rewrite (nth_map_R' _ _ k 0%Z 0) by auto. auto.
Qed.

Lemma ext_sum_fin : forall l, ext_sum (map Fin l) = Fin (vsum l).
Proof. induction l as [|a l IH]; auto. unfold ext_sum, vsum in *. cbn [map fold_right]. rewrite IH. auto. Qed.
Lemma kind_tests : forall ids l, is_l1 (kind_of ids l) = Z.eqb (-2) l /\ is_pos (kind_of ids l) = Z.eqb (-3) l /\ is_nonneg (kind_of ids l) = Z.eqb (-4) l.
Proof.
  intros ids l. unfold kind_of. destruct (Z.eqb_spec l (-1)); [subst l; auto|]. destruct (Z.eqb_spec l (-2)); [subst l; auto|]. destruct (Z.eqb_spec l (-3)); [subst l; auto|]. destruct (Z.eqb_spec l (-4)); [subst l; auto|].
  cbn [is_l1 is_pos is_nonneg]. repeat split; symmetry; apply Z.eqb_neq; congruence.
Qed.
Lemma pos_abs : forall x, all_nonneg x -> vsum (map (fun a => Rmax a 0) x) = ell1 x.
Proof. intros x H. unfold ell1. f_equal. apply map_ext_in. intros a Ha. unfold all_nonneg in H. rewrite Forall_forall in H. specialize (H a Ha). rewrite Rmax_left, Rabs_pos_eq by lra. auto. Qed.
(** Without the feasibility test the value is right at every feasible point. *)
Theorem ml_value : forall labels ids given x r, enumerates ids labels -> length x = length labels -> mixed_pen labels (group_weight given labels) x = Fin r ->
  mixed_seminorm (ml_kinds labels ids) (ml_warr labels ids given) x false = Fin r.
Proof.
  intros labels ids given x r En Lx E. unfold mixed_seminorm. cbn [andb].
  rewrite (kpick_block is_l1 labels ids (-2)), (kpick_block is_pos labels ids (-3)) by (intros l _; apply (kind_tests ids l)).
  rewrite ml_norms by auto. rewrite <- E. unfold mixed_pen in *. rewrite ext_sum_app in *.
  rewrite <- (ext_sum_perm _ _ (Permutation_map (fun g => group_term (group_weight given labels g) (block labels g x)) En)) in *.
  assert (EG : ext_sum (map (fun g => group_term (group_weight given labels g) (block labels g x)) ids) = Fin (vsum (map (fun g => group_weight given labels g * norm (block labels g x)) ids))).
  { rewrite <- ext_sum_fin, map_map. f_equal. apply map_ext. intros g. unfold group_term. rewrite ell2_norm. auto. }
  rewrite EG in *. cbn [ext_sum fold_right doc_seminorm] in *. destruct (nonneg_dec (block labels (-3) x)) as [N|]; [|destruct (nonneg_dec (block labels (-4) x)); discriminate].
  destruct (nonneg_dec (block labels (-4) x)); [|discriminate]. cbn [ext_add]. rewrite pos_abs by auto. f_equal. unfold ell1, vabs. lra.
Qed.
Theorem mlatom_value : forall n a x r, mlatom_wf n a -> ml_dual a = false -> b_offset (ml_base a) = None -> length x = n ->
  mixed_pen (ml_labels a) (group_weight (ml_weights a) (ml_labels a)) x = Fin r ->
  mlatom_objective a x false = Ok (base_doc n (mfun false (ml_labels a) (ml_weights a) (ml_par a)) (ml_base a) x).
Proof.
  intros n a x r (Ln & En & Hp & Hb & Hw) Hd Ho Lx E. unfold mlatom_objective. rewrite Hd.
  unfold shifted_objective. rewrite (base_apply_offset_eq n) by auto. unfold base_doc, base_off, off_vec. rewrite Ho. rewrite vsub_zeros_r by auto.
  unfold mlatom_seminorm. unfold base_apply_offset. rewrite Ho. rewrite (ml_value _ _ _ x r) by (auto; congruence).
  cbn [rmap rbind]. unfold mfun, gmode. rewrite E. destruct Hb as (_ & _ & Hq). rewrite <- (q_func_doc n) by auto. auto.
Qed.

(** ** Wrong results *)
Lemma Rabs_m5 : Rabs (-5) = 5. Proof. rewrite Rabs_left; lra. Qed.
Lemma mixed_bound_signed : mixed_bound_prox (ml_kinds [(-2)%Z] []) (ml_warr [(-2)%Z] [] (fun _ => None)) [-5] 1 = Ok [-5].
Proof.
  assert (E : mixed_cut [ML1] [] [-5] 1 0 = Ok 0).
  { unfold mixed_cut, find_solution_piecewise_linear. cbn [length group_norms add_norms zeros repeat map kpick is_l1 is_pos filter app]. destruct (Req_EM_T (-5) 0); [exfalso; lra|]. cbn. destruct (Rlt_dec _ _); auto. exfalso. lra. }
  cbn [ml_kinds ml_warr map kind_of Z.eqb Pos.eqb]. unfold mixed_bound_prox. rewrite E. cbn [rbind]. unfold mixed_clip. cbn [clip_entries clip_entry]. destruct (Req_EM_T (-5) 0); [exfalso; lra|]. rewrite Rabs_m5.
  cbn [rmap rbind vsub vzip]. f_equal. f_equal. rewrite Rmin_right by lra. lra.
Qed.
Lemma mixed_bound_outside : ~ gball (mixed_pen [(-2)%Z] (fun _ => 1)) 1 [-5].
Proof. unfold gball, mixed_pen. cbn [block pick Z.eqb Pos.eqb mixed_groups filter reserved orb negb distinct nodup map app ext_sum fold_right doc_seminorm].
  destruct (nonneg_dec []) as [|N]; [|destruct N; constructor]. cbn. rewrite Rabs_m5, Rabs_R0 || rewrite Rabs_m5. lra. Qed.
Definition zero_iq := mk_iq 0 FNone FNone 0.
Lemma zero_func : forall x, q_func {| coef := 0; center := FNone; linear_term := FNone; constant_term := 0 |} x = 0.
Proof. intros x. unfold q_func. cbn [coef constant_term q_linpart linear_term]. assert (E : vsum (map (fun t => 0 * t) x) = 0) by (induction x as [|a x IH]; unfold vsum in *; cbn [map fold_right]; [auto|rewrite IH; lra]). rewrite E. lra. Qed.
Definition l1_obj (off : option vec) (par : R) : mlatom := mk_mlatom false [(-2)%Z] [] (fun _ => None) par (mk_base 1 off zero_iq).
Lemma mixed_zero_nan : forall labels ids given x L, length x = length labels -> 0 < L -> In 0 (block labels (-2) x) ->
  mixed_lagrange_prox (ml_kinds labels ids) (ml_warr labels ids given) x 0 L = Err NaNResult.
Proof.
  intros labels ids given x L Lx HL H. unfold mixed_lagrange_prox, mixed_clip. rewrite clip_entries_nan; auto.
  - rewrite ml_kinds_length. auto.
  - unfold Rdiv. rewrite Rmult_0_l. lra.
  - rewrite (kpick_block is_l1 labels ids (-2)) by (intros l _; apply (kind_tests ids l)). apply Exists_exists. exists 0. auto.
Qed.
Lemma mixed_feasible_rejected : mlatom_objective (mk_mlatom false [(-4)%Z] [] (fun _ => None) 1 (mk_base 1 None zero_iq)) [0] true = Ok PInf /\
  base_doc 1 (mfun false [(-4)%Z] (fun _ => None) 1) (mk_base 1 None zero_iq) [0] = Fin 0.
Proof.
  split.
  - unfold mlatom_objective, shifted_objective, mlatom_seminorm, mixed_seminorm. cbn [ml_base ml_labels ml_ids ml_weights ml_par ml_dual ml_kinds ml_warr map kind_of Z.eqb Pos.eqb base_apply_offset b_offset kpick is_pos is_nonneg is_l1 existsb andb orb].
    destruct (Rlt_dec 0 tol); [|pose proof tol_pos; tauto]. reflexivity.
  - unfold base_doc, base_off, off_vec, mfun, gmode, mixed_pen, zero_iq. cbn [b_offset b_quadratic zeros repeat vsub vzip block pick Z.eqb Pos.eqb mixed_groups filter reserved orb negb distinct nodup map app ext_sum fold_right doc_seminorm].
    destruct (nonneg_dec []) as [|N]; [|destruct N; constructor]. destruct (nonneg_dec [0 - 0]) as [|N]; [|destruct N; repeat constructor; lra].
    unfold quad_fun. cbn. f_equal. unfold ell1. cbn. lra.
Qed.
Lemma mixed_offset_twice : mlatom_objective (l1_obj (Some [1]) 1) [1] false = Ok (Fin 1) /\
  base_doc 1 (mfun false [(-2)%Z] (fun _ => None) 1) (ml_base (l1_obj (Some [1]) 1)) [1] = Fin 0.
Proof.
  split.
  - unfold mlatom_objective, shifted_objective, mlatom_seminorm, mixed_seminorm, l1_obj, zero_iq. cbn. f_equal. f_equal. rewrite zero_func. replace (1 - 1 - 1) with (-1) by lra. rewrite Rabs_left by lra. lra.
  - unfold base_doc, base_off, off_vec, mfun, gmode, mixed_pen, l1_obj, zero_iq. cbn [ml_base b_offset b_quadratic zeros repeat vsub vzip block pick Z.eqb Pos.eqb mixed_groups filter reserved orb negb distinct nodup map app ext_sum fold_right doc_seminorm].
    destruct (nonneg_dec []) as [|N]; [|destruct N; constructor].
    unfold quad_fun, ell1. cbn. f_equal. replace (1 - 1) with 0 by lra. rewrite Rabs_R0. lra.
Qed.
Definition l1_dual_obj : mlatom := mk_mlatom true [(-2)%Z] [] (fun _ => None) 1 (mk_base 1 None zero_iq).
Lemma mixed_dual_value : mlatom_objective l1_dual_obj [0] true = Ok (Fin 1) /\ mlatom_objective l1_dual_obj [2] true = Ok (Fin 0).
Proof.
  split; unfold mlatom_objective, shifted_objective, mlatom_dual_constraint, mlatom_dual_seminorm, mixed_dual_seminorm, l1_dual_obj, zero_iq; cbn.
  - rewrite Rabs_R0. destruct (Rle_dec 0 1); [|exfalso; lra]. f_equal. f_equal. rewrite zero_func. lra.
  - rewrite Rabs_pos_eq by lra. destruct (Rle_dec 2 1); [exfalso; lra|]. f_equal. f_equal. rewrite zero_func. lra.
Qed.
Definition gobj (dual : bool) (w : R) (lag bnd : option R) : gatom := mk_gatom dual [0%Z; 1%Z] (fun g => if Z.eqb g 1 then Some w else Some 1) (mk_moded lag bnd (mk_base 2 None zero_iq)).
Lemma gdual_zero_weight : gatom_objective (gobj true 0 None (Some 1)) [0; 5] true = Ok (Fin 0) /\ gmode (gfun true [0%Z; 1%Z] (g_weights (gobj true 0 None (Some 1)))) (Bound 1) [0; 5] = PInf.
Proof.
  split.
  - unfold gatom_objective, gobj, zero_iq, moded_objective, shifted_objective, g_constraint, mixed_dual_seminorm, group_norms. cbn.
    destruct (Rlt_dec 0 1); [|exfalso; lra]. destruct (Rlt_dec 0 0); [exfalso; lra|]. cbn. rewrite Rmult_0_r, Rplus_0_r, sqrt_0. destruct (Rle_dec _ 1); [|exfalso; lra]. cbn. f_equal. f_equal. rewrite zero_func. lra.
  - unfold gmode, gfun, glasso_dual. cbn [distinct nodup gobj g_weights]. cbn [in_dec list_rec list_rect Z.eq_dec]. cbn.
    unfold group_dual_term, group_weight. cbn. destruct (Rlt_dec 0 1); [|exfalso; lra]. destruct (Rlt_dec 0 0); [exfalso; lra|]. destruct (Req_EM_T _ 0) as [E|]; auto. exfalso. unfold ell2, vsum in E; cbn in E. apply sqrt_eq_0 in E; lra.
Qed.
Lemma gatom_eq_bound : forall b, gatom_eq (gobj false 1 None (Some b)) (gobj false 1 None (Some 1)) = true.
Proof. intros b. unfold gatom_eq, gobj. cbn. destruct (Req_EM_T 1 1); [auto|tauto]. Qed.
Lemma gobj_values : gatom_objective (gobj false 1 None (Some 1)) [2; 0] true = Ok PInf /\ gatom_objective (gobj false 1 None (Some 2)) [2; 0] true = Ok (Fin 0).
Proof.
  assert (S2 : sqrt (0 + 2 * 2) = 2) by (rewrite Rplus_0_l; apply sqrt_square; lra). assert (S0 : sqrt (0 + 0 * 0) = 0) by (rewrite Rmult_0_r, Rplus_0_r; apply sqrt_0).
  split; unfold gatom_objective, gobj, zero_iq, moded_objective, shifted_objective, g_constraint, mixed_seminorm, group_norms; cbn; rewrite S2, S0; destruct (Rle_dec _ _); try (exfalso; lra); cbn; auto. f_equal. f_equal. rewrite zero_func. lra.
Qed.
Lemma g_negative_weight : exists a, new_gatom false [0%Z] (fun _ => Some (-1)) (Some 1) None None (Some zero_iq) = Ok a /\ gatom_objective a [3] true = Ok (Fin (-3)).
Proof.
  assert (M : mode_ok (Lagrange 1)) by (simpl; lra). unfold new_gatom. rewrite (new_moded_ok _ (Lagrange 1) None (Some zero_iq) M). eexists. split; [reflexivity|]. assert (S3 : sqrt (0 + 3 * 3) = 3) by (rewrite Rplus_0_l; apply sqrt_square; lra).
  unfold gatom_objective, moded_objective, shifted_objective, g_seminorm, zero_iq, mixed_seminorm, group_norms. cbn. rewrite S3. f_equal. f_equal. rewrite zero_func. lra.
Qed.
Theorem set_weight_correct : forall a g w, In g (g_groups a) -> exists b, set_weight a g w = Ok b /\ g_groups b = g_groups a /\ g_dual b = g_dual a /\ g_moded b = g_moded a /\
  forall g', group_weight (g_weights b) (g_groups b) g' = if Z.eqb g' g then w else group_weight (g_weights a) (g_groups a) g'.
Proof.
  intros a g w Hg. unfold set_weight. assert (E : existsb (Z.eqb g) (g_groups a) = true) by (apply existsb_exists; exists g; split; auto; apply Z.eqb_refl). rewrite E.
  eexists. split; [reflexivity|]. cbn. repeat split; auto. intros g'. unfold group_weight. destruct (Z.eqb g' g); auto.
Qed.
Theorem set_weight_unknown : forall a g w, ~ In g (g_groups a) -> set_weight a g w = Err ValueError.
Proof.
  intros a g w Hg. unfold set_weight. destruct (existsb (Z.eqb g) (g_groups a)) eqn:E; auto. apply existsb_exists in E. destruct E as (g' & H & Eg). apply Z.eqb_eq in Eg. subst. tauto.
Qed.
Theorem new_gatom_correct : forall dual groups weights m o q, mode_ok m -> weights_nonneg groups weights -> (forall v, o = Some v -> length v = length groups) -> q_shape (length groups) q ->
  exists a, new_gatom dual groups weights (lag_of m) (bnd_of m) o (Some q) = Ok a /\ g_dual a = dual /\ g_groups a = groups /\ gatom_wf (length groups) a m /\
    (forall g, In g groups -> group_weight (g_weights a) groups g = group_weight weights groups g) /\ m_base (g_moded a) = new_base (length groups) o (Some q).
Proof.
  intros dual groups weights m o q Hm Hw Ho Hq. unfold new_gatom. rewrite new_moded_ok by auto. eexists. split; [reflexivity|]. cbn [g_dual g_groups g_weights g_moded m_base].
  split; auto. split; auto. split; [|split; [intros; apply group_weight_filled; auto|auto]]. split; auto. cbn [g_moded]. split; [|apply nonneg_filled; auto]. unfold moded_wf. cbn [m_lagrange m_bound m_base]. split; auto. split; auto. split; auto. apply new_base_wf; auto.
Qed.
