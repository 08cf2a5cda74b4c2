(** Warm-started paths, and the deviance that paths report. *)
From Coq Require Import Reals List Lra Lia Arith Bool ZArith FunctionalExtensionality.
From Verif Require Import M_affine SpecAffine P_affine P_affine2 M_loss SpecLoss SpecSmooth P_smooth Vec Spec SpecConvex M_quad M_prox M_semi M_weighted P_quad P_calc P_sep P_feas M_smooth M_problem M_cv SpecCv P_cv M_path SpecPath P_path P_path2 P_path3 P_path4 P_path6
  SpecPart SpecGroup M_mixed M_group SpecGatom P_part P_mixed P_kinds P_group P_sgl5 M_sgl M_gpath SpecGpath P_gpath P_gpath3 P_gpath4 SpecBlock M_block M_sgb M_sbpath SpecSbpath P_sbpath3 M_mpath P_mpath4 M_subprob SpecSgpath P_sgpath SpecSubprob P_subprob P_subprob2.
From Verif Require P_prox.
Import ListNotations.
Local Open Scope R_scope.

Section Value.
Variable P : lpath.
Hypothesis GP : good_path P.
Hypothesis LX : linear_design P.
Let p := lp_size P.
Lemma all_index : index_set p (seq 0 p).
Proof. split; [apply seq_NoDup|]. apply Forall_forall. intros j Hj. apply in_seq in Hj. lia. Qed.
Lemma embed_all : forall v, length v = p -> embed p (seq 0 p) v = v.
Proof. intros v L. transitivity (embed p (seq 0 p) (gather (seq 0 p) v)); [f_equal; rewrite <- L; symmetry; apply gather_all|]. apply (embed_gather P); auto; [apply all_index|]. intros j Hj. apply nth_overflow. rewrite L. destruct (Nat.lt_ge_cases j p); auto. destruct Hj. apply in_seq. lia. Qed.
Lemma params_length : forall lam, length (enet_params P lam None) = p.
Proof. intros lam. unfold enet_params. rewrite map_length, combine_length, map_length. destruct (gp_e _ GP) as (-> & _), (gp_w _ GP) as (-> & _). apply Nat.min_id. Qed.
Lemma total_value : forall lam v, length v = p -> sm_func (total_loss P lam) v = smooth_part P lam v.
Proof.
  intros lam v L. unfold total_loss. rewrite sum_value. unfold smooth_part. f_equal; [unfold full_loss; cbn [sm_func]; rewrite LX; auto|].
  replace (enet_params P lam None) with (enet_params P lam (Some (seq 0 p))) by (rewrite enet_gather; rewrite <- (params_length lam); apply gather_all). rewrite (ridge_value P GP) by (try apply all_index; rewrite seq_length; auto). fold p. rewrite embed_all by auto. reflexivity.
Qed.
Theorem warm_lasso_value : forall lam v, length v = p -> objective (total_loss P lam) (warm_lasso_pen P lam) v = Ok (Fin (path_objective P lam v)).
Proof.
  intros lam v L. unfold objective, warm_lasso_pen, w_seminorm. rewrite andb_false_l. cbn [rmap rbind ext_add]. rewrite total_value by auto. destruct (gp_w _ GP) as (Lw & Nw). rewrite l1_terms by (auto; rewrite Lw; symmetry; exact L). unfold path_objective, lasso_objective. do 3 f_equal. f_equal; [ring|].
  transitivity (sum_over p (fun j => nth j (lp_weights P) 0 * Rabs (nth j (embed p (seq 0 p) v) 0))); [|rewrite embed_all by auto; reflexivity]. rewrite (embed_sum p (fun j a => nth j (lp_weights P) 0 * Rabs a)) by (try apply all_index; try (rewrite seq_length; auto); intros; rewrite Rabs_R0; ring). f_equal. rewrite <- (combine_gather (fun a b => a * Rabs b)). do 2 f_equal. rewrite <- (gather_all (lp_weights P)) at 1. rewrite Lw. reflexivity.
Qed.
End Value.
Theorem warm_group_value : forall grad func X groups given enet alpha, let B := gq_base (group_path grad func X groups given enet alpha) in good_path B -> linear_design B -> length groups = lp_size B ->
  forall lam v, length v = lp_size B -> objective (total_loss B lam) (warm_group_pen B groups (filled given groups) lam) v = Ok (Fin (gpath_objective B groups (group_weight given groups) lam v)).
Proof.
  intros grad func X groups given enet alpha B GP LX LG lam v L. unfold objective, warm_group_pen. rewrite (group_value _ _ (group_weight given groups)) by (try congruence; intros g Hg; apply weight_at; auto). cbn [rmap rbind ext_add]. rewrite (total_value B GP LX) by auto. unfold gpath_objective, group_objective. do 3 f_equal. f_equal. ring.
Qed.
Theorem warm_sparse_value : forall grad func X groups lw given enet alpha l1_alpha fuel0, let B := gq_base (sparse_group_path grad func X groups lw given enet alpha l1_alpha fuel0) in let a := map (fun x => x * l1_alpha) lw in
  good_path B -> linear_design B -> length groups = lp_size B -> length lw = length groups -> nonneg a ->
  forall lam v, length v = lp_size B -> objective (total_loss B lam) (warm_sparse_pen B groups (sg_lasso lw l1_alpha) (sg_weights groups given l1_alpha) lam) v = Ok (Fin (sparse_objective B groups a (fun g => (1 - l1_alpha) * group_weight given groups g) lam v)).
Proof.
  intros grad func X groups lw given enet alpha l1_alpha fuel0 B a GP LX LG Ll Na lam v L. unfold objective, warm_sparse_pen. change (sg_lasso lw l1_alpha) with a. rewrite (sparse_pen_value _ _ _ (fun g => (1 - l1_alpha) * group_weight given groups g)); auto; [|congruence|unfold a; rewrite map_length; auto|intros g Hg; apply sg_weight_at; auto].
  cbn [rmap rbind ext_add]. rewrite (total_value B GP LX) by auto. unfold sparse_objective. do 3 f_equal. f_equal. ring.
Qed.
Theorem warm_block_value : forall order grad func X r c l1 l2 l1_alpha enet alpha fuel0, let B := gq_base (sb_path order grad func X r c l1 l2 l1_alpha enet alpha fuel0) in good_path B -> linear_design B ->
  forall lam v, length v = lp_size B -> objective (total_loss B lam) (warm_block_pen B r c l1 l2 lam) v = Ok (Fin (block_objective B r c l1 l2 lam v)).
Proof.
  intros order grad func X r c l1 l2 l1_alpha enet alpha fuel0 B GP LX lam v L. unfold objective, warm_block_pen, new_sgb. unfold M_mode.new_moded, M_semi.is_neg. destruct (Rlt_dec 1 0); [lra|]. cbn [rmap rbind]. unfold sgb_seminorm. cbn [rmap rbind sb_dual sb_l1 sb_l2 sb_r sb_c ext_add]. rewrite (total_value B GP LX) by auto. unfold block_objective. do 3 f_equal. f_equal; [ring|].
  unfold block_pen, row_norms. do 3 f_equal. apply map_ext. intros q. symmetry. apply P_prox.ell2_norm.
Qed.
(** ** the loop *)
Section Loop.
Variables (M : warm_optimizer) (P : lpath) (pen : R -> vec -> res ext) (inner_tol : R).
Lemma loop_spec : forall ls d x step out d' x' step', warm_loop M P pen inner_tol ls (d, x, step) = (out, (d', x', step')) ->
  exists steps, warm_calls M P pen inner_tol step ls x d (map fst out) steps /\ map snd out = map (fun b => sm_func (full_loss P) b) (map fst out) /\ (forall n, d' (KOther n) = d (KOther n)) /\ (ls <> [] -> d' KTol = Some inner_tol).
Proof.
  induction ls as [|l ls IH]; intros d x step out d' x' step' E; cbn [warm_loop] in E.
  - inversion E; subst. exists []. split; [|split; [auto|split; [auto|congruence]]]. split; auto. split; auto. intros i Hi. cbn in Hi. lia.
  - unfold warm_step in E. set (d1 := assign (assign d KTol inner_tol) KStep step) in E. destruct (M d1 (lp_size P) _ x) as [s step1] eqn:EM. destruct (warm_loop M P pen inner_tol ls (d1, s, step1)) as [out2 [[d2 x2] step2]] eqn:E2. inversion E; subst. destruct (IH _ _ _ _ _ _ _ E2) as (steps & (L1 & L2 & C) & V & O & T). cbn [fst snd] in *.
    assert (D1 : d1 KTol = Some inner_tol) by reflexivity.
    exists (step1 :: steps). split; [|split; [|split]].
    + unfold warm_calls. cbn [map length fst]. split; [f_equal; exact L1|]. split; [f_equal; exact L2|]. intros [|i] Hi.
      * exists d1. auto.
      * cbn [nth]. destruct (C i ltac:(lia)) as (e & E1 & E3 & E4 & E5). exists e. split; auto.
    + cbn [map fst snd]. rewrite V. reflexivity.
    + intros n. rewrite O. reflexivity.
    + intros _. destruct ls as [|l' ls]; [cbn [warm_loop] in E2; inversion E2; subst; reflexivity|apply T; congruence].
Qed.
Theorem warm_spec : forall step ls x d, ls <> [] -> exists bs steps d', warm_start M P pen inner_tol step ls x d = (Ok (bs, devratio (map (fun b => sm_func (full_loss P) b) bs)), d') /\ warm_calls M P pen inner_tol step ls x d bs steps /\
  (forall n, d' (KOther n) = d (KOther n)) /\ d' KTol = Some inner_tol.
Proof.
  intros step ls x d Ne. unfold warm_start. destruct (warm_loop M P pen inner_tol ls (d, x, step)) as [out [[d' x'] step']] eqn:E. destruct (loop_spec _ _ _ _ _ _ _ _ E) as (steps & C & V & O & T). exists (map fst out), steps, d'. split; [destruct ls; [congruence|]; rewrite V; reflexivity|]. auto.
Qed.
Theorem warm_empty : forall step x d, fst (warm_start M P pen inner_tol step [] x d) = Err ValueError.
Proof. reflexivity. Qed.
Lemma loop_same : forall ls (d e : dict) x step, (forall n, d (KOther n) = e (KOther n)) -> fst (warm_loop M P pen inner_tol ls (d, x, step)) = fst (warm_loop M P pen inner_tol ls (e, x, step)).
Proof.
  intros [|l ls] d e x step H; auto. cbn [warm_loop]. unfold warm_step. replace (assign (assign e KTol inner_tol) KStep step) with (assign (assign d KTol inner_tol) KStep step); [reflexivity|]. apply functional_extensionality. intros [| |n]; cbn; auto.
Qed.
Theorem warm_args : forall step ls x (d e : dict), (forall n, d (KOther n) = e (KOther n)) -> fst (warm_start M P pen inner_tol step ls x d) = fst (warm_start M P pen inner_tol step ls x e).
Proof.
  intros step ls x d e H. unfold warm_start. assert (E := loop_same ls d e x step H). destruct (warm_loop M P pen inner_tol ls (d, x, step)) as [o1 [[d1 x1] s1]], (warm_loop M P pen inner_tol ls (e, x, step)) as [o2 [[d2 x2] s2]]. cbn [fst] in E. subst. reflexivity.
Qed.
End Loop.
(** every solution minimizes *)
Theorem warm_exact : forall M P pen Obj inner_tol step ls x d bs ratios d', warm_start M P pen inner_tol step ls x d = (Ok (bs, ratios), d') ->
  (forall l v, In l ls -> length v = lp_size P -> objective (total_loss P l) (pen l) v = Ok (Fin (Obj l v))) -> (forall l, In l ls -> warm_minimized M (lp_size P) (objective (total_loss P l) (pen l))) ->
  length bs = length ls /\ forall i, (i < length ls)%nat -> is_argmin (lp_size P) (fun v => Fin (Obj (nth i ls 0) v)) (nth i bs []).
Proof.
  intros M P pen Obj inner_tol step ls x d bs ratios d' E V Mi. assert (Ne : ls <> []) by (intros ->; discriminate). destruct (warm_spec M P pen inner_tol step ls x d Ne) as (bs' & steps & d'' & E' & (L1 & L2 & C) & _). rewrite E in E'. inversion E'; subst. split; auto. intros i Hi. destruct (C i Hi) as (e & _ & _ & _ & Ec). assert (Hin : In (nth i ls 0) ls) by (apply nth_In; auto). destruct (Mi _ Hin) as (G & EG & Am). specialize (Am e (nth i (x :: bs') [])). rewrite Ec in Am. cbn [fst] in Am.
  apply (argmin_ext _ G); auto. intros c Lc. apply Ok_inj. rewrite <- EG by auto. apply V; auto.
Qed.
(** ** the loss does not increase along the path *)
Lemma smooth_split : forall P lam v, smooth_part P lam v = smooth_part P 0 v + lam * ((1 - lp_alpha P) / 2 * sum_over (lp_size P) (fun j => nth j (lp_enet P) 0 * (if Req_EM_T (nth j (lp_weights P) 0) 0 then 0 else 1) * (nth j v 0 * nth j v 0))).
Proof.
  intros P lam v. unfold smooth_part. rewrite Rplus_assoc. f_equal. set (k := (1 - lp_alpha P) / 2). replace (lam * (k * sum_over (lp_size P) (fun j => nth j (lp_enet P) 0 * (if Req_EM_T (nth j (lp_weights P) 0) 0 then 0 else 1) * (nth j v 0 * nth j v 0)))) with (k * sum_over (lp_size P) (fun j => lam * (nth j (lp_enet P) 0 * (if Req_EM_T (nth j (lp_weights P) 0) 0 then 0 else 1) * (nth j v 0 * nth j v 0)))) by (unfold sum_over; rewrite vsum_scal_map; ring).
  rewrite <- Rmult_plus_distr_l. f_equal. unfold sum_over. rewrite <- vsum_map_add. apply vsum_map_ext. intros j _. destruct (Req_EM_T _ 0); ring.
Qed.
Lemma no_free_loss : forall P v, length (lp_enet P) = lp_size P -> no_free_ridge P -> smooth_part P 0 v = lp_func P (t_lin (lp_X P) v).
Proof.
  intros P v Le [A|F]; unfold smooth_part; [rewrite A; unfold Rdiv; lra|]. replace (sum_over _ _) with 0; [ring|]. unfold sum_over. symmetry. induction (seq 0 (lp_size P)) as [|j s IH]; auto. cbn [map]. rewrite vsum_cons, IH. destruct (Req_EM_T (nth j (lp_weights P) 0) 0) as [E|E]; [rewrite (F j E)|]; ring.
Qed.
Lemma monotone : forall (A Q : vec -> R) l1 l2 x1 x2, 0 <= l2 < l1 -> A x1 + l1 * Q x1 <= A x2 + l1 * Q x2 -> A x2 + l2 * Q x2 <= A x1 + l2 * Q x1 -> A x2 <= A x1 /\ Q x1 <= Q x2.
Proof. intros A Q l1 l2 x1 x2 H E1 E2. assert (D : Q x1 <= Q x2) by nra. split; nra. Qed.
Theorem warm_losses : forall M P pen Q inner_tol step ls x d bs ratios d', length (lp_enet P) = lp_size P -> linear_design P -> no_free_ridge P -> warm_start M P pen inner_tol step ls x d = (Ok (bs, ratios), d') ->
  (forall l v, In l ls -> length v = lp_size P -> objective (total_loss P l) (pen l) v = Ok (Fin (smooth_part P l v + lp_alpha P * l * Q v))) -> (forall l, In l ls -> warm_minimized M (lp_size P) (objective (total_loss P l) (pen l))) ->
  decreasing ls -> Forall (fun l => 0 < l) ls ->
  let f := fun v => lp_func P (t_lin (lp_X P) v) in
  (forall i j, (i < j < length ls)%nat -> f (nth j bs []) <= f (nth i bs [])) /\
  ((forall b, In b bs -> 0 < f b) -> length ratios = length ls /\ (forall i, (i < length ls)%nat -> nth i ratios 0 = explained f (nth 0 bs []) (nth i bs [])) /\ nth 0 ratios 0 = 0 /\ (forall i j, (i < j < length ls)%nat -> nth i ratios 0 <= nth j ratios 0 < 1)).
Proof.
  intros M P pen Q inner_tol step ls x d bs ratios d' Le LX NF E V Mi Dec Pos f. destruct (warm_exact M P pen (fun l v => smooth_part P l v + lp_alpha P * l * Q v) inner_tol step ls x d bs ratios d' E V Mi) as (Lb & Am).
  assert (Mono : forall i j, (i < j < length ls)%nat -> f (nth j bs []) <= f (nth i bs [])).
  { intros i j Hij. destruct (Am i ltac:(lia)) as (Li & _ & Mi'). destruct (Am j ltac:(lia)) as (Lj & _ & Mj). specialize (Mi' _ Lj). specialize (Mj _ Li). cbn [ext_le] in Mi', Mj. unfold f. rewrite <- !(no_free_loss P) by auto. rewrite !(smooth_split P (nth i ls 0)) in Mi'. rewrite !(smooth_split P (nth j ls 0)) in Mj.
    set (q := fun v => (1 - lp_alpha P) / 2 * sum_over (lp_size P) (fun j => nth j (lp_enet P) 0 * (if Req_EM_T (nth j (lp_weights P) 0) 0 then 0 else 1) * (nth j v 0 * nth j v 0))). rewrite Forall_forall in Pos. assert (Pj := Pos (nth j ls 0) ltac:(apply nth_In; lia)). assert (Dl := Dec i j Hij).
    destruct (monotone (smooth_part P 0) (fun v => q v + lp_alpha P * Q v) (nth i ls 0) (nth j ls 0) (nth i bs []) (nth j bs [])) as (R & _); auto; [lra| |]; cbv beta; fold (q (nth i bs [])) (q (nth j bs [])) in Mi', Mj; lra. }
  split; auto. intros Pf. assert (Ne : ls <> []) by (intros ->; discriminate). destruct (warm_spec M P pen inner_tol step ls x d Ne) as (bs' & steps & d'' & E' & _). rewrite E in E'. assert (Eb : bs = bs') by congruence. assert (Er : ratios = devratio (map (fun b => sm_func (full_loss P) b) bs')) by congruence. rewrite <- Eb in Er.
  assert (Lb' : forall b, In b bs -> length b = lp_size P). { intros b Hb. apply (In_nth _ _ []) in Hb as (i & Hi & <-). assert (Hi' : (i < length ls)%nat) by (rewrite <- Lb; exact Hi). destruct (Am i Hi') as (L & _). exact L. }
  assert (Ef : map (fun b => sm_func (full_loss P) b) bs = map f bs) by (apply map_ext_in; intros b Hb; unfold full_loss, f; cbn [sm_func]; rewrite LX; auto). rewrite Er, Ef. set (o := map f bs).
  assert (Lo : length o = length ls) by (unfold o; rewrite map_length; auto). assert (No : forall i, (i < length ls)%nat -> nth i o 0 = f (nth i bs [])). { intros i Hi. unfold o. rewrite (nth_indep _ 0 (f [])) by (rewrite map_length; lia). apply map_nth. }
  assert (Hne : o <> []) by (destruct o, ls; cbn in Lo; congruence). assert (Fo : Forall (fun a => 0 < a) o) by (apply Forall_forall; intros a Ha; apply in_map_iff in Ha as (b & <- & Hb); auto).
  destruct (devratio_range o Hne Fo) as (Lr & Rg & _ & Mr). assert (Len : (0 < length ls)%nat) by (destruct ls; [congruence|cbn; lia]).
  assert (Mx : fold_right Rmax (hd 0 o) o = f (nth 0 bs [])).
  { assert (H0 : hd 0 o = f (nth 0 bs [])) by (rewrite <- No by auto; destruct o; auto). rewrite H0. assert (Up : Forall (fun a => a <= f (nth 0 bs [])) o). { apply Forall_forall. intros a Ha. apply (In_nth _ _ 0) in Ha as (i & Hi & <-). rewrite Lo in Hi. rewrite No by auto. destruct i as [|i]; [lra|]. apply Mono. lia. }
    clear -Up. induction Up as [|a l Ha Up IH]; auto. cbn [fold_right]. rewrite IH. apply Rmax_right. auto. }
  assert (Nr : forall i, (i < length ls)%nat -> nth i (devratio o) 0 = explained f (nth 0 bs []) (nth i bs [])).
  { intros i Hi. unfold devratio. rewrite Mx. rewrite (nth_indep _ 0 ((fun a => 1 - a / f (nth 0 bs [])) 0)) by (rewrite map_length; lia). rewrite (map_nth (fun a => 1 - a / f (nth 0 bs []))). rewrite No by auto. reflexivity. }
  split; [congruence|]. split; auto. split.
  - rewrite Nr by auto. unfold explained. assert (0 < f (nth 0 bs [])) by (apply Pf, nth_In; lia). field. lra.
  - intros i j Hij. split; [apply Mr; try lia; rewrite !No by lia; apply Mono; auto|]. rewrite Forall_forall in Rg. apply Rg, nth_In. lia.
Qed.
(** ** what strong_rules reports *)
Lemma deviances_good : forall P pts lp, Forall (fun pt => snd pt = false) pts -> deviances P lp pts = map (fun pt => lp_func P (mat_tvec (t_out (lp_X P)) (subsample_columns (lp_X P) (fst (fst pt))) (snd (fst pt)))) pts.
Proof. intros P pts lp F. revert lp. induction F as [|[[vars sub] wn] pts H F IH]; intros lp; auto. cbn [snd] in H. subst wn. cbn [deviances map fst snd]. rewrite IH. reflexivity. Qed.
Theorem strong_dev : forall P S chk max_tries fuel l0 ls solution g pts, good_path P -> right_size S -> length solution = lp_size P -> (forall j, (j < lp_size P)%nat -> nth j solution 0 = 0) -> strong_rules fuel P S chk max_tries (l0 :: ls) solution g = Ok pts ->
  Forall (fun pt => pt_warned pt = false) pts -> let f := fun v => lp_func P (t_lin (lp_X P) v) in lasso_dev P solution pts = explained f solution (last (betas solution pts) []).
Proof.
  intros P S chk max_tries fuel l0 ls solution g pts GP RS Ls Zs E F f. cbn [strong_rules] in E.
  assert (OK : state_ok P (start_state P solution g)). { unfold start_state, state_ok. cbn. split; auto. split; [split; constructor|]. intros j _. destruct (Nat.lt_ge_cases j (lp_size P)); [auto|apply nth_overflow; lia]. }
  destruct (path_spec P GP S chk max_tries fuel ls l0 _ pts RS OK E) as (_ & Sp). unfold lasso_dev, dev_explained. rewrite deviances_good by (apply Forall_map; eapply Forall_impl; [|exact F]; auto). rewrite map_map. cbn [fst snd hd]. fold (f solution). unfold explained, betas. f_equal. f_equal.
  replace (map (fun pt => lp_func P (mat_tvec (t_out (lp_X P)) (subsample_columns (lp_X P) (pt_set pt)) (pt_sub pt))) pts) with (map f (map pt_beta pts)).
  - change (f solution :: map f (map pt_beta pts)) with (map f (solution :: map pt_beta pts)). generalize (map pt_beta pts) as l. intros l. generalize solution as s. clear. induction l as [|b l IH]; intros s; auto. change (last (map f (s :: b :: l)) 0) with (last (map f (b :: l)) 0). change (last (s :: b :: l) []) with (last (b :: l) []). apply IH.
  - rewrite map_map. apply map_ext_in. intros pt Hpt. rewrite Forall_forall in Sp. destruct (Sp pt Hpt) as ((I & Eb & k & v & Es) & _). unfold f. rewrite Eb. rewrite (lin_embed P GP) by (auto; rewrite Es; apply RS). reflexivity.
Qed.
(** a value given up keeps the deviance of the value before *)
Definition liar : solver := fun _ _ set _ => map (fun _ => 1) set.
Lemma failing1t : forall w g s lam, failing true [w] [g] [s] lam = [active_fails [w] [g] [s] lam kkt_tol 0 || gtb (inactive_term [w] [g] [s] lam 0) (1 + kkt_tol)].
Proof. intros w g s lam. apply (nth_ext _ _ false false); [rewrite failing_length; auto|]. intros i Hi. rewrite failing_length in Hi. rewrite failing_nth by auto. cbn [length] in Hi. destruct i; [reflexivity|lia]. Qed.
Lemma liar_first : exists g, try_once (one_path 10) liar true 9 1 (start_state (one_path 10) [0] [-10]) = (false, [], [0], mk_pstate [0] g [true] [] 1).
Proof.
  exists [-10]. unfold try_once. change (s_set (start_state (one_path 10) [0] [-10])) with (@nil nat). change (s_fail (start_state (one_path 10) [0] [-10])) with [false]. change (picked [false]) with (@nil nat). change (union (lp_size (one_path 10)) [] []) with (@nil nat). cbn [liar map s_sol s_gsol s_calls start_state subsample_columns mat_tvec M_affine.scatter].
  assert (SM : strong_mask (lp_weights (one_path 10)) [-10] (9 * lp_alpha (one_path 10)) (1 * lp_alpha (one_path 10)) = [true]). { unfold strong_mask. cbn. replace (is0 1) with false by (symmetry; apply is0_false; lra). replace (gtb (Rabs (-10) / 1) (2 * (1 * 1) - 9 * 1)) with true; auto. symmetry. apply gtb_true. rewrite Rabs_left by lra. lra. }
  rewrite SM. change (picked [true]) with [0%nat]. change (zeros (t_out (lp_X (one_path 10)))) with [0]. set (sg := vadd _ _). change (gather [0%nat] (lp_weights (one_path 10))) with [1]. change (gather [0%nat] [0]) with [0].
  assert (Lg : sg = [-10]) by (unfold sg, one_path, gauss_path; cbn; unfold dot, vsum, enet_entry; cbn; destruct (is0 1); f_equal; lra). rewrite Lg. change (lp_alpha (one_path 10)) with 1. rewrite failing1t, term_large by (try lra; rewrite (Rabs_left (-10)) by lra; lra). rewrite orb_true_r. reflexivity.
Qed.
Lemma one_set_kept : forall S chk max_tries lcur lnew fuel num st pt st', s_set st = [0%nat] -> tries fuel (one_path 10) S chk max_tries lcur lnew num st = Ok (pt, st') -> pt_set pt = [0%nat].
Proof.
  intros S chk max_tries lcur lnew. assert (U : forall l, union (lp_size (one_path 10)) [0%nat] l = [0%nat]) by reflexivity. induction fuel as [|fuel IH]; intros num st pt st' E T; [discriminate|]. cbn [tries] in T.
  assert (K : s_set (snd (try_once (one_path 10) S chk lcur lnew st)) = [0%nat]) by (unfold try_once; rewrite E, U; destruct (existsb _ _); reflexivity). destruct (try_once (one_path 10) S chk lcur lnew st) as [[[ok sub] lin] st1]. cbn [snd] in K. destruct ok; [inversion T; subst; exact K|].
  destruct (Nat.eqb (Datatypes.S num mod 5) 0); cbn [andb] in T.
  - destruct (Nat.leb max_tries (Datatypes.S num)); [inversion T; subst; exact K|]. eapply IH; [|exact T]. cbn [s_set]. rewrite K. apply U.
  - eapply IH; [|exact T]. cbn [s_set]. rewrite K. apply U.
Qed.
Theorem dev_stale : exists pt, strong_rules 5 (one_path 10) liar true 1 [9; 1] [0] [-10] = Ok [pt] /\ pt_warned pt = true /\ pt_beta pt = [1] /\
  lasso_dev (one_path 10) [0] [pt] = 0 /\ explained (fun v => lp_func (one_path 10) (t_lin (lp_X (one_path 10)) v)) [0] (pt_beta pt) = 19 / 100.
Proof.
  set (P := one_path 10). assert (GP : good_path P) by apply one_good. assert (OK : state_ok P (start_state P [0] [-10])) by apply (start_ok P). assert (RS : right_size liar) by (intros k v set l; apply map_length).
  destruct (tries_ends P liar true 1 9 1 5 0 (start_state P [0] [-10])) as (pt & st' & T & _); [unfold bound; cbn; lia|]. exists pt.
  assert (E : strong_rules 5 P liar true 1 [9; 1] [0] [-10] = Ok [pt]) by (unfold strong_rules; cbn [run_path]; rewrite T; reflexivity).
  destruct (path_spec P GP liar true 1 5 [1] 9 _ [pt] RS OK E) as (El & Sp). apply Forall_inv in Sp. destruct Sp as (Rp & Acc & _). cbn [map] in El. inversion El as [El']. rewrite El' in *.
  assert (Es : pt_set pt = [0%nat]). { change 5%nat with (Datatypes.S 4) in T. cbn [tries] in T. destruct liar_first as (g & L1). fold P in L1. rewrite L1 in T. cbn [s_sol s_gsol s_fail s_set s_calls] in T. change (Nat.eqb (1 mod 5) 0) with false in T. cbn [andb] in T. eapply (one_set_kept liar true 1 9 1 4 1); [|exact T]. reflexivity. }
  destruct Rp as (_ & Eb & k & v & Esub). rewrite Es in Eb, Esub. cbn in Esub. rewrite Esub in Eb. change (pt_beta pt = [1]) in Eb.
  assert (Wn : pt_warned pt = true). { destruct (pt_warned pt); auto. destruct (Acc eq_refl) as (_ & A). destruct (A eq_refl) as (Fa & _). unfold checked in Fa. rewrite Eb in Fa. unfold P in Fa. rewrite one_gradient in Fa. change (lp_weights (one_path 10)) with [1] in Fa. change (lp_alpha (one_path 10)) with 1 in Fa. unfold check_KKT in Fa. cbn [fst length seq map] in Fa. apply Forall_inv in Fa. unfold active_fails in Fa. cbn [nth] in Fa.
    replace (is0 1) with false in Fa by (symmetry; apply is0_false; lra). replace (gtb 1 0) with true in Fa by (symmetry; apply gtb_true; lra). cbn [negb andb] in Fa. apply gtb_false in Fa. unfold np_sign in Fa. destruct (Rlt_dec 1 0); [lra|]. destruct (Rlt_dec 0 1); [|lra]. rewrite Rabs_left in Fa; unfold kkt_tol in Fa; lra. }
  assert (F : forall c, lp_func P (t_lin (lp_X P) [c]) = / 2 * ((c - 10) * (c - 10))) by (intros c; unfold P, one_path, gauss_path; cbn; unfold sqn, dot, vsum; cbn; unfold dot, vsum; cbn; lra).
  split; auto. split; auto. split; auto. split.
  - unfold lasso_dev, dev_explained. cbn [map deviances]. rewrite Wn. cbn [last hd]. rewrite F. field.
  - rewrite Eb. unfold explained. rewrite !F. field.
Qed.
