(** Groups: the problems handed to the solver are the whole problem restricted to the candidate groups. *)
From Coq Require Import Reals List Lra Lia Arith Bool ZArith Permutation.
From Verif Require Import M_affine SpecAffine P_affine P_affine2 M_loss SpecLoss SpecSmooth P_smooth Vec Spec SpecConvex M_quad M_prox M_semi M_weighted P_quad P_calc P_sep P_feas M_smooth M_problem M_cv SpecCv P_cv M_path SpecPath P_path P_path2 P_path3 P_path4 P_path6
  SpecPart SpecGroup M_mixed M_group SpecGatom P_part P_mixed P_kinds P_group P_sgl5 M_sgl M_gpath SpecGpath P_gpath P_gpath3 P_gpath4 SpecBlock M_block M_sgb M_sbpath SpecSbpath P_sbpath3 M_subprob SpecGpath SpecSgpath P_sgpath SpecSubprob P_subprob.
From Verif Require P_buffer P_separable P_gauge P_sbpath2 P_sgl7.
Import ListNotations.
Local Open Scope R_scope.

(** ** sums over groups *)
Lemma vsum_filter : forall (F : Z -> R) (Q : Z -> bool) l, (forall g, Q g = false -> F g = 0) -> vsum (map F l) = vsum (map F (filter Q l)).
Proof. intros F Q l Z. induction l as [|g l IH]; auto. cbn [filter map]. destruct (Q g) eqn:E; cbn [map]; rewrite !vsum_cons, IH; auto. rewrite (Z g E). ring. Qed.
Lemma labels_filter : forall groups set, labels_at groups (candidates groups set) = filter (fun g => zmem g set) groups.
Proof.
  intros groups set. unfold labels_at, candidates. transitivity (filter (fun g => zmem g set) (map (fun j => nth j groups 0%Z) (seq 0 (length groups)))); [|f_equal; apply (labels_all groups)]. induction (seq 0 (length groups)) as [|j s IH]; auto. cbn [filter map]. destruct (zmem (nth j groups 0%Z) set); cbn [map]; rewrite IH; auto.
Qed.
Lemma labels_in : forall groups set g, In g (labels_at groups (candidates groups set)) <-> In g groups /\ In g set.
Proof. intros. rewrite labels_filter, filter_In. rewrite zmem_In. reflexivity. Qed.
Lemma sum_restrict : forall (F : Z -> R) groups set, (forall g, ~ In g set -> F g = 0) -> vsum (map F (distinct groups)) = vsum (map F (distinct (labels_at groups (candidates groups set)))).
Proof.
  intros F groups set Z. rewrite (vsum_filter F (fun g => zmem g set)); [|intros g Hg; apply Z; intros H; apply zmem_In in H; congruence]. apply vsum_perm, Permutation_map. apply NoDup_Permutation; [apply NoDup_filter, NoDup_nodup|apply NoDup_nodup|]. intros g. unfold distinct. rewrite filter_In, !nodup_In, zmem_In, labels_in. tauto.
Qed.
Lemma gather_embed : forall p set (c : vec), index_set p set -> length c = length set -> gather set (embed p set c) = c.
Proof. intros p set c (N & B) L. unfold embed. apply (P_separable.part_scatter set c); auto. eapply Forall_impl; [|exact B]. cbv beta. intros j Hj. unfold zeros. rewrite repeat_length. exact Hj. Qed.
Section Groups.
Variables (P : lpath) (groups : list Z).
Hypothesis LG : length groups = lp_size P.
Let p := lp_size P.
Lemma vars_index : forall set, index_set p (candidates groups set).
Proof. intros. unfold p. rewrite <- LG. apply candidates_index. Qed.
Lemma block_embed : forall set c g, length c = length (candidates groups set) -> In g set -> block (labels_at groups (candidates groups set)) g c = block groups g (embed p (candidates groups set) c).
Proof.
  intros set c g L Hg. rewrite <- (block_gather groups set g (embed p (candidates groups set) c)); auto; [|unfold p; rewrite (embed_length P); auto]. rewrite gather_embed; auto. apply vars_index.
Qed.
Lemma block_off : forall set c h, ~ In h set -> block groups h (embed p (candidates groups set) c) = zeros (length (block groups h (embed p (candidates groups set) c))).
Proof.
  intros set c h Nh. rewrite block_select by (unfold p; rewrite (embed_length P); auto). rewrite map_length. generalize (fun j (H : ~ In j (candidates groups set)) => embed_outside P (candidates groups set) c j H). fold p. generalize (embed p (candidates groups set) c). intros e O.
  assert (A : forall j, In j (filter (fun j => Z.eqb h (nth j groups 0%Z)) (seq 0 (length groups))) -> nth j e 0 = 0). { intros j Hj. apply filter_In in Hj as (_ & E). apply Z.eqb_eq in E. apply O. intros H. apply candidates_In in H as (_ & H). rewrite <- E in H. contradiction. }
  induction (filter _ _) as [|j l IH]; auto. cbn [map length]. unfold zeros in *. cbn [repeat]. rewrite A by (left; auto). f_equal. apply IH. intros i Hi. apply A. right; auto.
Qed.
Lemma norm_zeros : forall n, norm (zeros n) = 0.
Proof. intros n. unfold norm, sqn, dot. rewrite vmul_zeros_r. rewrite vsum_zeros'. apply sqrt_0. Qed.
Lemma group_penalty_restrict : forall w set c, length c = length (candidates groups set) -> group_penalty (labels_at groups (candidates groups set)) w c = group_penalty groups w (embed p (candidates groups set) c).
Proof.
  intros w set c L. unfold group_penalty. rewrite (sum_restrict _ groups set); [|intros g Ng; rewrite block_off by auto; rewrite norm_zeros; ring]. apply vsum_map_ext. intros g Hg. unfold distinct in Hg. apply -> (nodup_In Z.eq_dec) in Hg. apply labels_in in Hg as (_ & Hg). rewrite block_embed; auto.
Qed.
Lemma sparse_penalty_restrict : forall lw w set c, length lw = length groups -> length c = length (candidates groups set) -> sparse_penalty (labels_at groups (candidates groups set)) (gather (candidates groups set) lw) w c = sparse_penalty groups lw w (embed p (candidates groups set) c).
Proof.
  intros lw w set c Ll L. unfold sparse_penalty. rewrite (sum_restrict _ groups set).
  - apply vsum_map_ext. intros g Hg. unfold distinct in Hg. apply -> (nodup_In Z.eq_dec) in Hg. apply labels_in in Hg as (_ & Hg). rewrite (block_embed set c g) by auto. rewrite block_gather by auto. reflexivity.
  - intros g Ng. rewrite block_off by auto. rewrite norm_zeros. change (map Rabs) with vabs. rewrite vabs_zeros, vmul_zeros_r, vsum_zeros'. ring.
Qed.
End Groups.
(** ** values of the penalties *)
Lemma group_value : forall labels given w x lam, length x = length labels -> (forall g, In g labels -> group_weight given labels g = w g) -> g_seminorm false labels given x lam = Ok (Fin (lam * group_penalty labels w x)).
Proof.
  intros labels given w x lam L W. rewrite g_seminorm_primal by auto. unfold gfun. rewrite glasso_value. cbn [ext_scale]. do 3 f_equal. apply (penalty_ext labels (group_weight given labels) w x W).
Qed.
Lemma sparse_pen_value : forall labels lw given w x lam, length x = length labels -> length lw = length labels -> nonneg lw -> (forall g, In g labels -> group_weight given labels g = w g) -> s_seminorm labels (map Fin lw) given x lam false = Ok (Fin (lam * sparse_penalty labels lw w x)).
Proof.
  intros labels lw given w x lam L Ll N W. unfold s_seminorm. rewrite (group_value labels given w) by auto. cbn [rbind]. unfold w_seminorm. rewrite andb_false_l. cbn [rbind ext_add]. do 2 f_equal. rewrite l1_terms by (auto; congruence).
  unfold sparse_penalty, group_penalty. rewrite vsum_map_add. rewrite Rmult_plus_distr_l. rewrite Rplus_comm. f_equal. f_equal.
  transitivity (vsum (vmul lw (map Rabs x))).
  - assert (E : length lw = length x) by congruence. clear -E. revert x E. induction lw as [|a l IH]; intros [|b x] E; try discriminate; auto. cbn [map combine fst snd]. unfold vmul. cbn [vzip]. rewrite !vsum_cons. f_equal. apply IH. cbn in E. lia.
  - rewrite <- (vsum_blocks labels) by (unfold vmul; rewrite vzip_length; rewrite ?map_length; congruence). apply vsum_map_ext. intros g _. rewrite block_vmul by (rewrite ?map_length; auto). rewrite block_map. auto.
Qed.
(** ** group lasso *)
Section Group.
Variables (grad : vec -> vec) (func : vec -> R) (X : transform) (groups : list Z) (given : Z -> option R) (enet : vec) (alpha : R).
Let B := gq_base (group_path grad func X groups given enet alpha).
Let w := group_weight given groups.
Hypothesis GP : good_path B.
Hypothesis LG : length groups = lp_size B.
Theorem group_restricted_problem : forall lam set c, length c = length (features groups set) ->
  objective (sub_loss B (features groups set) lam) (M_subprob.group_pen B groups (filled given groups) (features groups set) lam) c = Ok (Fin (gpath_objective B groups w lam (embed (lp_size B) (features groups set) c))).
Proof.
  intros lam set c. rewrite <- candidates_features. intros L. unfold objective, M_subprob.group_pen. rewrite (group_value _ _ w).
  - cbn [rmap rbind ext_add]. rewrite (sub_value B GP) by (auto; apply (vars_index B groups LG)). rewrite (group_penalty_restrict B groups LG) by auto. reflexivity.
  - unfold labels_at. rewrite map_length. auto.
  - intros g Hg. apply labels_in in Hg as (Hg & _). apply weight_at. auto.
Qed.
Theorem group_exact : forall M, sized M -> (forall set l, 0 < l -> minimized M (length (features groups set)) (objective (sub_loss B (features groups set) l) (M_subprob.group_pen B groups (filled given groups) (features groups set) l))) ->
  right_size (path_solver M B (M_subprob.group_pen B groups (filled given groups))) /\ exact_group_solver B groups w (path_solver M B (M_subprob.group_pen B groups (filled given groups))).
Proof.
  intros M S1 S2. split; [intros k v set l; apply S1|]. intros k v set l Hl. unfold group_solves, path_solver, solve_subproblem. cbn [an_soln]. apply minimized_argmin; [apply S2; auto|]. intros c Lc. apply group_restricted_problem; auto.
Qed.
Theorem group_null_right : forall M, sized M -> (let free := features groups (g_unpenalized groups (filled given groups)) in minimized M (length free) (objective (sub_loss B free big) (M_subprob.group_pen B groups (filled given groups) free big))) ->
  let '(s, g) := group_null_fit M B groups (filled given groups) in group_null B groups w s /\ g = path_gradient B s (t_lin (lp_X B) s) 1.
Proof.
  intros M S1 S2. unfold group_null_fit. cbv zeta in S2. set (set := g_unpenalized groups (filled given groups)) in *. rewrite <- candidates_features in S2.
  assert (U : forall g, In g set <-> In g groups /\ w g = 0). { intros g. unfold set, g_unpenalized. rewrite filter_In, is0_true. unfold g_ids. rewrite sorted_unique_in. split; intros (A & E); split; auto. - rewrite <- E. symmetry. apply (weight_at given groups groups g A). - rewrite <- E. apply (weight_at given groups groups g A). }
  set (free := candidates groups set) in *. assert (I := vars_index B groups LG set). fold free in I. destruct (null_fit_shape B GP M (M_subprob.group_pen B groups (filled given groups)) free S1 I) as (b & Lb & -> & Hb). split; auto. set (s := embed (lp_size B) free b).
  assert (Lw : length (lp_weights B) = length groups) by (unfold B; cbn [group_path gq_base lp_weights]; apply map_length).
  assert (W : forall j, (j < length groups)%nat -> nth j (lp_weights B) 0 = w (nth j groups 0%Z)). { intros j Hj. unfold B. cbn [group_path gq_base lp_weights]. rewrite (nth_indep _ 0 (weight_of (filled given groups) groups 0%Z)) by (rewrite map_length; auto). rewrite (map_nth (weight_of (filled given groups) groups)). apply (weight_at given groups groups). apply nth_In; auto. }
  assert (Z : forall j, nth j (lp_weights B) 0 <> 0 -> nth j s 0 = 0). { intros j Hj. destruct (Nat.lt_ge_cases j (length groups)) as [Hg|Hg]; [|rewrite nth_overflow in Hj by lia; lra]. apply (embed_outside B). intros H. apply candidates_In in H as (_ & H). apply U in H as (_ & H). rewrite W in Hj by auto. contradiction. }
  split; [apply (embed_length B)|]. split.
  - intros g Hg Wg. unfold s, free. rewrite (block_off B groups LG); [apply norm_zeros|]. intros H. apply U in H. tauto.
  - intros g Hg Wg. assert (Hs : In g set) by (apply U; auto). assert (Ne : free <> []). { apply In_nth with (d := 0%Z) in Hg. destruct Hg as (j & Hj & Ej). intros E. assert (H : In j free) by (apply candidates_In; rewrite Ej; auto). rewrite E in H. destruct H. }
    destruct (Hb Ne) as (x0 & Eb). assert (So : group_solves B groups w big set b). { unfold group_solves. rewrite <- candidates_features. fold free. rewrite Eb. apply minimized_argmin; auto. intros c Lc. unfold free. rewrite candidates_features. apply group_restricted_problem. rewrite <- candidates_features. auto. }
    assert (St := exact_gstat grad func X groups given enet alpha GP LG big set b g big_pos Hg Hs So). fold B w in St. unfold ggrad in St. fold B in St. rewrite Wg, Rmult_0_r in St. rewrite <- candidates_features in St. fold free s in St. rewrite (gradient_free B s big Z) in St. set (gg := block groups g (path_gradient B s (t_lin (lp_X B) s) 1)) in *.
    assert (Ls : length s = lp_size B) by apply (embed_length B). destruct (path_gradient_right B GP 1 s Ls) as (Lg & _).
    assert (Lb2 : length gg = length (block groups g s)) by (apply block_length; congruence). specialize (St (vopp gg)). unfold gstat in St. assert (D : 0 <= dot gg (vopp gg)) by (specialize (St ltac:(unfold vopp; rewrite map_length; auto)); lra).
    unfold norm. replace (sqn gg) with 0; [apply sqrt_0|]. assert (E : dot gg (vopp gg) = - sqn gg). { unfold sqn. clear. induction gg as [|a l IH]; [unfold dot, vmul; cbn; unfold vsum; simpl; ring|]. unfold dot, vmul, vopp in *. cbn [map vzip]. rewrite !vsum_cons, IH. ring. } assert (0 <= sqn gg) by apply sqn_nonneg. lra.
Qed.
End Group.
(** ** sparse group lasso *)
Section Sparse.
Variables (grad : vec -> vec) (func : vec -> R) (X : transform) (groups : list Z) (lw : vec) (given : Z -> option R) (enet : vec) (alpha l1_alpha : R) (fuel0 : nat).
Let B := gq_base (sparse_group_path grad func X groups lw given enet alpha l1_alpha fuel0).
Let ws := sg_weights groups given l1_alpha.
Let a := map (fun x => x * l1_alpha) lw.
Let w := fun g => (1 - l1_alpha) * group_weight given groups g.
Hypothesis GP : good_path B.
Hypothesis (LG : length groups = lp_size B) (Ll : length lw = length groups) (Na : nonneg a).
Theorem sparse_restricted_problem : forall lam set c, length c = length (features groups set) ->
  objective (sub_loss B (features groups set) lam) (sparse_pen B groups (sg_lasso lw l1_alpha) ws (features groups set) lam) c = Ok (Fin (sparse_objective B groups a w lam (embed (lp_size B) (features groups set) c))).
Proof.
  intros lam set c. rewrite <- candidates_features. intros L. unfold objective, sparse_pen. change (sg_lasso lw l1_alpha) with a. assert (La : length a = length groups) by (unfold a; rewrite map_length; auto).
  rewrite (sparse_pen_value _ _ _ w).
  - cbn [rmap rbind ext_add]. rewrite (sub_value B GP) by (auto; apply (vars_index B groups LG)). rewrite (sparse_penalty_restrict B groups LG) by auto. reflexivity.
  - unfold labels_at. rewrite map_length. auto.
  - unfold gather, labels_at. rewrite !map_length. auto.
  - unfold nonneg, gather. apply Forall_forall. intros x Hx. apply in_map_iff in Hx as (j & <- & Hj). destruct (Nat.lt_ge_cases j (length a)) as [H|H]; [|rewrite nth_overflow by lia; lra]. unfold nonneg in Na. rewrite Forall_forall in Na. apply Na, nth_In. auto.
  - intros g Hg. apply labels_in in Hg as (Hg & _). apply sg_weight_at. auto.
Qed.
Theorem sparse_exact : forall M, sized M -> (forall set l, 0 < l -> minimized M (length (features groups set)) (objective (sub_loss B (features groups set) l) (sparse_pen B groups (sg_lasso lw l1_alpha) ws (features groups set) l))) ->
  right_size (path_solver M B (sparse_pen B groups (sg_lasso lw l1_alpha) ws)) /\ forall k v set l, 0 < l -> sparse_solves B groups a w l set (path_solver M B (sparse_pen B groups (sg_lasso lw l1_alpha) ws) k v (features groups set) l).
Proof.
  intros M S1 S2. split; [intros k v set l; apply S1|]. intros k v set l Hl. unfold sparse_solves, path_solver, solve_subproblem. cbn [an_soln]. apply minimized_argmin; [apply S2; auto|]. intros c Lc. apply sparse_restricted_problem; auto.
Qed.
End Sparse.
(** ** rows of a matrix *)
Definition row_names (c : nat) (ks : list Z) : list Z := flat_map (fun k => repeat k c) ks.
Lemma row_names_length : forall c ks, length (row_names c ks) = (length ks * c)%nat.
Proof. intros c. induction ks as [|k ks IH]; auto. unfold row_names in *. cbn [flat_map length]. rewrite app_length, repeat_length, IH. lia. Qed.
Lemma row_names_in : forall c ks g, In g (row_names c ks) -> In g ks.
Proof. intros c ks g H. unfold row_names in H. apply in_flat_map in H as (k & Hk & H). apply repeat_spec in H. subst. auto. Qed.
Lemma row_names_sum : forall c ks (F : vec -> R) v, NoDup ks -> (0 < c)%nat -> length v = (length ks * c)%nat -> vsum (map (fun g => F (block (row_names c ks) g v)) ks) = vsum (map F (rows (length ks) c v)).
Proof.
  intros c. induction ks as [|k ks IH]; intros F v N Hc L; auto. apply NoDup_cons_iff in N as (Nk & N). cbn [length rows map]. cbn [length] in L. rewrite !vsum_cons.
  set (v1 := firstn c v). set (v2 := skipn c v). assert (L1 : length v1 = c) by (unfold v1; rewrite firstn_length; lia). assert (L2 : length v2 = (length ks * c)%nat) by (unfold v2; rewrite skipn_length; lia). assert (Ev : v = v1 ++ v2) by (symmetry; apply firstn_skipn).
  assert (E : forall g, block (row_names c (k :: ks)) g v = block (repeat k c) g v1 ++ block (row_names c ks) g v2) by (intros g; rewrite Ev; apply block_app; rewrite repeat_length; auto). f_equal.
  - rewrite E. rewrite block_same by auto. rewrite block_none; [rewrite app_nil_r; auto|]. intros H. apply row_names_in in H. contradiction.
  - rewrite <- (IH F v2) by auto. apply vsum_map_ext. intros g Hg. rewrite E. rewrite (block_none (repeat k c)); auto. intros H. apply repeat_spec in H. rewrite H in Hg. contradiction.
Qed.
Lemma row_names_distinct : forall c ks, NoDup ks -> (0 < c)%nat -> Permutation (distinct (row_names c ks)) ks.
Proof.
  intros c ks N Hc. apply NoDup_Permutation; auto; [apply NoDup_nodup|]. intros g. unfold distinct. rewrite nodup_In. split; [apply row_names_in|]. intros H. apply in_flat_map. exists g. split; auto. destruct c; [lia|left; auto].
Qed.
Lemma row_names_pen : forall c ks l1 l2 v, NoDup ks -> (0 < c)%nat -> length v = (length ks * c)%nat -> sparse_penalty (row_names c ks) (repeat l1 (length ks * c)) (fun _ => l2) v = block_pen (length ks) c l1 l2 v.
Proof.
  intros c ks l1 l2 v N Hc L. rewrite P_sbpath.block_pen_rows by auto. unfold sparse_penalty. rewrite (vsum_perm _ _ (Permutation_map _ (row_names_distinct c ks N Hc))). rewrite <- row_names_sum by auto. apply vsum_map_ext. intros g Hg. unfold SpecSgpath.group_pen. f_equal. f_equal. f_equal.
  assert (H : Forall (fun x => x = l1) (block (row_names c ks) g (repeat l1 (length ks * c)))) by (apply block_forall, Forall_forall; intros x Hx; apply repeat_spec in Hx; auto).
  assert (Lb : length (block (row_names c ks) g (repeat l1 (length ks * c))) = c).
  { clear H v L. revert Hg N. induction ks as [|k ks IH]; intros Hg N; [destruct Hg|]. apply NoDup_cons_iff in N as (Nk & N). cbn [length]. replace (S (length ks) * c)%nat with (c + length ks * c)%nat by lia. rewrite repeat_app. unfold row_names. cbn [flat_map]. rewrite block_app by (rewrite !repeat_length; auto). rewrite app_length. fold (row_names c ks). destruct Hg as [->|Hg].
    - rewrite block_same by apply repeat_length. rewrite repeat_length. rewrite block_none; [cbn; lia|]. intros H. apply row_names_in in H. contradiction.
    - rewrite block_none; [cbn [length]; apply IH; auto|]. intros H. apply repeat_spec in H. subst. contradiction. }
  revert H Lb. generalize (block (row_names c ks) g (repeat l1 (length ks * c))). intros q H Lb. clear -H Lb. revert c Lb. induction H as [|x l -> H IH]; intros [|c] Lb; try discriminate; auto. cbn [repeat]. f_equal. apply IH. cbn in Lb. lia.
Qed.
Lemma row_labels_filter : forall c ks set, filter (fun g => zmem g set) (row_names c ks) = row_names c (filter (fun g => zmem g set) ks).
Proof.
  intros c ks set. induction ks as [|k ks IH]; auto. unfold row_names in *. cbn [flat_map filter]. rewrite filter_app, IH. assert (E : forall n, filter (fun g => zmem g set) (repeat k n) = if zmem k set then repeat k n else []) by (induction n as [|n IHn]; [destruct (zmem k set); auto|]; cbn [repeat filter]; rewrite IHn; destruct (zmem k set); auto). rewrite E. destruct (zmem k set); auto.
Qed.
Lemma row_labels_names : forall r c, row_labels r c = row_names c (map Z.of_nat (seq 0 r)).
Proof. intros r c. unfold row_labels, row_names. induction (seq 0 r) as [|i l IH]; auto. cbn [flat_map map]. rewrite IH. auto. Qed.
Section Rows.
Variables (order : list ext -> list nat) (grad : vec -> vec) (func : vec -> R) (X : transform) (r c : nat) (l1 l2 : R) (l1_alpha : option R) (enet : vec) (alpha : R) (fuel0 : nat).
Let B := gq_base (sb_path order grad func X r c l1 l2 l1_alpha enet alpha fuel0).
Hypothesis (GP : good_path B) (Hc : (0 < c)%nat).
Let labels := row_labels r c.
Lemma rows_size : length labels = lp_size B.
Proof. unfold labels. rewrite row_labels_length. symmetry. apply (sb_size order grad func X r c l1 l2 l1_alpha enet alpha fuel0 GP). Qed.
Theorem block_restricted_problem : forall lam set b, 0 <= lam -> length b = length (features labels set) ->
  objective (sub_loss B (features labels set) lam) (block_sub_pen B c l1 l2 (features labels set) lam) b = Ok (Fin (block_objective B r c l1 l2 lam (embed (lp_size B) (features labels set) b))).
Proof.
  intros lam set b Hl. rewrite <- candidates_features. intros L. set (vars := candidates labels set) in *. assert (Al : 0 <= lp_alpha B * lam) by (destruct (gp_alpha _ GP); apply Rmult_le_pos; lra). assert (Lx := rows_size). set (ks := filter (fun g => zmem g set) (map Z.of_nat (seq 0 r))).
  assert (En : labels_at labels vars = row_names c ks) by (unfold vars; rewrite labels_filter; unfold labels; rewrite row_labels_names, row_labels_filter; auto). assert (Lv : length vars = (length ks * c)%nat) by (rewrite <- row_names_length, <- En; unfold labels_at; rewrite map_length; auto).
  assert (Nk : NoDup ks) by (apply NoDup_filter, FinFun.Injective_map_NoDup; [intros x y; lia|apply seq_NoDup]).
  unfold objective, block_sub_pen. replace (Nat.div (length vars) c) with (length ks) by (rewrite Lv, Nat.div_mul; lia). unfold new_sgb. unfold M_mode.new_moded, M_semi.is_neg. destruct (Rlt_dec (lp_alpha B * lam) 0); [lra|]. cbn [rmap rbind sgb_seminorm sb_dual sb_l1 sb_l2 sb_r sb_c]. unfold sgb_seminorm. cbn [rmap rbind sb_dual sb_l1 sb_l2 sb_r sb_c ext_add]. rewrite (sub_value B GP) by (auto; apply (vars_index B labels Lx)). unfold block_objective. do 4 f_equal.
  transitivity (block_pen (length ks) c l1 l2 b); [unfold block_pen, row_norms; f_equal; f_equal; f_equal; apply map_ext; intros q; symmetry; apply P_prox.ell2_norm|]. rewrite <- row_names_pen by (auto; lia). rewrite <- En. assert (Le : length (embed (lp_size B) vars b) = (r * c)%nat) by (rewrite (embed_length B), <- Lx; apply row_labels_length). rewrite <- block_sparse by auto. unfold vars. rewrite <- (sparse_penalty_restrict B labels Lx (repeat l1 (r * c))) by (auto; rewrite repeat_length; unfold labels; rewrite row_labels_length; auto).
  f_equal. fold vars. rewrite <- Lv. assert (F : Forall (fun j => (j < r * c)%nat) vars) by (destruct (vars_index B labels Lx set) as (_ & F); rewrite <- Lx in F; unfold labels in F; rewrite row_labels_length in F; auto). clear -F. induction F as [|j l Hj F IH]; auto. cbn [gather map length repeat]. unfold gather in IH. rewrite IH. f_equal. rewrite (nth_indep _ 0 l1) by (rewrite repeat_length; auto). symmetry. apply nth_repeat.
Qed.
Theorem block_exact : forall M, sized M -> (forall set l, 0 < l -> minimized M (length (features labels set)) (objective (sub_loss B (features labels set) l) (block_sub_pen B c l1 l2 (features labels set) l))) ->
  right_size (path_solver M B (block_sub_pen B c l1 l2)) /\ forall k v set l, 0 < l -> block_solves B r c l1 l2 l set (path_solver M B (block_sub_pen B c l1 l2) k v (features labels set) l).
Proof.
  intros M S1 S2. split; [intros k v set l; apply S1|]. intros k v set l Hl. unfold block_solves, path_solver, solve_subproblem. cbn [an_soln]. apply minimized_argmin; [apply S2; auto|]. intros b Lb. apply block_restricted_problem; auto. lra.
Qed.
End Rows.
