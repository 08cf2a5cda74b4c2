(** Sparse group block paths: accepted points, weights, subsamples, the largest multiplier. *)
From Coq Require Import Reals List Lra Lia Psatz Bool ZArith Permutation Sorted.
From Verif Require P_sgl7 P_sgb3 P_path2.
From Verif Require Import M_affine SpecAffine P_affine P_affine2 Vec Spec SpecAtom SpecConvex M_quad M_prox M_semi SpecPart SpecGroup M_mixed M_weighted M_group SpecSgl M_sgl SpecBlock M_block SpecSgb M_sgb P_quad P_prox P_calc P_part P_weighted P_gauge P_group P_group2 P_sgl P_search P_sgl2 P_sgl3 P_sgl5
  M_loss SpecLoss SpecSmooth P_smooth P_fista M_problem M_cv SpecCv P_cv M_path SpecPath P_path P_path2 P_path3 P_path4 P_path6 M_gpath SpecGpath SpecSgpath P_gpath P_gpath2 P_gpath3 P_gpath4 P_sgpath P_sgpath2 P_sgpath3 P_sgpath4 P_sgpath5 P_sgpath6 P_sgpath7 M_sbpath SpecSbpath P_cones P_block P_sgb P_sbpath.
Import ListNotations.
Local Open Scope R_scope.

(** ** rows as groups *)
Definition labels_from (k r c : nat) : list Z := flat_map (fun i => repeat (Z.of_nat i) c) (seq k r).
Lemma labels_from_length : forall r k c, length (labels_from k r c) = (r * c)%nat.
Proof. induction r as [|r IH]; intros k c; auto. unfold labels_from in *. cbn [seq flat_map]. rewrite app_length, repeat_length, IH. reflexivity. Qed.
Lemma row_labels_length : forall r c, length (row_labels r c) = (r * c)%nat.
Proof. intros. apply (labels_from_length r 0 c). Qed.
Lemma labels_from_in : forall r k c h, In h (labels_from k r c) <-> (0 < c)%nat /\ exists i, (k <= i < k + r)%nat /\ h = Z.of_nat i.
Proof.
  intros r k c h. unfold labels_from. rewrite in_flat_map. split.
  - intros (i & Hi & Hh). apply in_seq in Hi. assert (E := repeat_spec _ _ _ Hh). destruct c; [destruct Hh|]. split; [lia|]. exists i. auto.
  - intros (Hc & i & Hi & ->). exists i. split; [apply in_seq; lia|]. destruct c; [lia|left; auto].
Qed.
Lemma block_app : forall la lb h x y, length x = length la -> block (la ++ lb) h (x ++ y) = block la h x ++ block lb h y.
Proof.
  induction la as [|a la IH]; intros lb h [|e x] y L; try discriminate; auto. unfold block in *. unfold pick in *. cbn [app combine filter fst]. destruct (Z.eqb h a); cbn [map]; rewrite IH by (simpl in L; congruence); reflexivity.
Qed.
Lemma block_none : forall la h x, ~ In h la -> block la h x = [].
Proof. induction la as [|a la IH]; intros h [|e x] N; auto. unfold block, pick in *. cbn [combine filter fst]. destruct (Z.eqb_spec h a) as [->|]; [exfalso; apply N; left; auto|]. apply IH. intros H; apply N; right; auto. Qed.
Lemma block_same : forall c h x, length x = c -> block (repeat h c) h x = x.
Proof. induction c as [|c IH]; intros h [|e x] L; try discriminate; auto. unfold block, pick in *. cbn [repeat combine filter fst]. rewrite Z.eqb_refl. cbn [map snd]. f_equal. apply IH. simpl in L; congruence. Qed.
Lemma block_rows_from : forall r k c i x, length x = (r * c)%nat -> (i < r)%nat -> block (labels_from k r c) (Z.of_nat (k + i)) x = nth i (rows r c x) [].
Proof.
  induction r as [|r IH]; intros k c i x L Hi; [lia|]. simpl in L. unfold labels_from. cbn [seq flat_map rows]. fold (labels_from (S k) r c). rewrite <- (firstn_skipn c x) at 1. assert (L1 : length (firstn c x) = c) by (rewrite firstn_length; lia). rewrite block_app by (rewrite repeat_length; auto). destruct i as [|i].
  - rewrite Nat.add_0_r. cbn [nth]. rewrite block_same by auto. rewrite block_none; [apply app_nil_r|]. intros H. apply labels_from_in in H. destruct H as (_ & j & Hj & E). lia.
  - cbn [nth]. rewrite (block_none (repeat _ _)) by (intros H; apply repeat_spec in H; lia). cbn [app]. replace (k + S i)%nat with (S k + i)%nat by lia. apply IH; [rewrite skipn_length; lia|lia].
Qed.
Lemma block_rows : forall r c i x, length x = (r * c)%nat -> (i < r)%nat -> block (row_labels r c) (Z.of_nat i) x = nth i (rows r c x) [].
Proof. intros. apply (block_rows_from r 0 c i x); auto. Qed.
Lemma rows_repeat : forall r c (a : R) i, (i < r)%nat -> nth i (rows r c (repeat a (r * c))) [] = repeat a c.
Proof.
  induction r as [|r IH]; intros c a i Hi; [lia|]. cbn [rows]. replace (S r * c)%nat with (c + r * c)%nat by lia. rewrite repeat_app. destruct i as [|i]; cbn [nth].
  - rewrite firstn_app, repeat_length, Nat.sub_diag, firstn_all2 by (rewrite repeat_length; auto). cbn [firstn]. apply app_nil_r.
  - rewrite skipn_app, repeat_length, Nat.sub_diag, skipn_all2 by (rewrite repeat_length; auto). cbn [skipn app]. apply IH. lia.
Qed.
Lemma distinct_rows : forall r c, (0 < c)%nat -> Permutation (distinct (row_labels r c)) (map Z.of_nat (seq 0 r)).
Proof.
  intros r c Hc. apply NoDup_Permutation; [apply NoDup_nodup|apply FinFun.Injective_map_NoDup; [intros a b E; lia|apply seq_NoDup]|]. intros h. unfold distinct. rewrite nodup_In. change (row_labels r c) with (labels_from 0 r c). rewrite labels_from_in, in_map_iff. split.
  - intros (_ & i & Hi & ->). exists i. split; auto. apply in_seq. lia.
  - intros (i & <- & Hi). apply in_seq in Hi. split; auto. exists i. split; auto.
Qed.
Lemma vsum_perm : forall a b : vec, Permutation a b -> vsum a = vsum b.
Proof. intros a b P. induction P; auto; rewrite ?vsum_cons; try congruence. ring. Qed.
Lemma block_sparse : forall r c l1 l2 v, (0 < c)%nat -> length v = (r * c)%nat -> sparse_penalty (row_labels r c) (repeat l1 (r * c)) (fun _ => l2) v = block_pen r c l1 l2 v.
Proof.
  intros r c l1 l2 v Hc Lv. rewrite block_pen_rows by auto. unfold sparse_penalty. rewrite (vsum_perm _ _ (Permutation_map _ (distinct_rows r c Hc))). rewrite map_map. f_equal. apply (nth_ext _ _ 0 0); [rewrite !map_length, seq_length, rows_length; auto|]. rewrite map_length, seq_length. intros i Hi.
  match goal with |- nth i (map ?F _) 0 = _ => set (G := F) end. rewrite (nth_indep _ 0 (G 0%nat)) by (rewrite map_length, seq_length; auto). rewrite (map_nth G), seq_nth by auto. cbn [Nat.add]. rewrite (nth_indep _ 0 (group_pen (repeat l1 c) l2 [])) by (rewrite map_length, rows_length; auto). rewrite (map_nth (group_pen (repeat l1 c) l2)). unfold G. rewrite !block_rows, rows_repeat by (auto; rewrite repeat_length; auto). reflexivity.
Qed.
(** ** the loop *)
Section Path.
Variables (order : list ext -> list nat) (grad : vec -> vec) (func : vec -> R) (X : transform) (r c : nat) (l1 l2 : R) (l1_alpha : option R) (enet : vec) (alpha : R) (fuel0 : nat).
Let P := sb_path order grad func X r c l1 l2 l1_alpha enet alpha fuel0.
Let B := gq_base P.
Hypothesis (GP : good_path B) (Hc : (0 < c)%nat) (So : sorts order).
Lemma sb_size : lp_size B = (r * c)%nat.
Proof. destruct (gp_w _ GP) as (L & _). rewrite <- L. apply repeat_length. Qed.
Lemma sb_check_lengths : forall r' g s lam tol q, sb_check order r' c l1 l2 g s lam tol fuel0 = Ok q -> length (fst q) = length (snd q).
Proof. intros r' g s lam tol q E. unfold sb_check in E. destruct (rall _ _) as [rs|]; [|discriminate]. cbn [rmap] in E. apply Ok_inj in E. subst q. cbn [fst snd]. unfold sb_ranks. rewrite !map_length, seq_length. reflexivity. Qed.
Definition sb_at (lam : R) (s : vec) : vec := path_gradient B s (t_lin X s) lam.
Theorem sb_accepted : forall S chk max_tries fuel l0 ls g pts, right_size S -> group_strong_rules fuel P S chk max_tries (l0 :: ls) (zeros (lp_size B)) g = Ok pts ->
  map gp_lagrange pts = ls /\ Forall (fun pt => group_restricted P S pt /\ (gp_warned pt = true -> (max_tries <= gp_tries pt)%nat) /\
    (gp_warned pt = false -> exists q, sb_check order r c l1 l2 (sb_at (gp_lagrange pt) (gp_beta pt)) (gp_beta pt) (alpha * gp_lagrange pt) kkt_tol fuel0 = Ok q /\ inactive_passes q /\ (chk = true -> passes q))) pts.
Proof.
  intros S chk max_tries fuel l0 ls g pts RS E. assert (LG : length (gq_groups P) = lp_size B) by (rewrite sb_size; apply row_labels_length). destruct (gpath_spec P GP LG S chk max_tries fuel ls l0 _ pts RS (gstart_ok P g) E) as (A & F). split; auto. apply Forall_impl with (2 := F). intros pt (H1 & H2 & H3). split; auto. split; auto. intros W. destruct (H2 W) as (q & Eq & Hq).
  fold B in Eq. rewrite sb_size in Eq. unfold P, sb_path in Eq. cbn [snd sb_weights gq_check] in Eq. rewrite seq_length, Nat.div_mul in Eq by lia. exists q. split; [exact Eq|]. apply sg_failing_none in Hq; auto. exact (sb_check_lengths _ _ _ _ _ _ Eq).
Qed.
Lemma sb_zero_passes : forall g s lam tol q i, 0 <= tol -> length g = (r * c)%nat -> length s = (r * c)%nat -> sb_check order r c l1 l2 g s lam tol fuel0 = Ok q -> inactive_passes q -> (i < r)%nat -> nth i (rows r c s) [] = zeros c ->
  exists m o, gauge_function_dual_strong (vopp (nth i (rows r c g) [])) (repeat l1 c) l2 fuel0 = Ok (Fin m, o) /\ m / lam <= 1 + tol.
Proof.
  intros g s lam tol q i Ht Lg Ls E Pq Hi Z. unfold sb_check in E. destruct (rall _ _) as [rs|] eqn:ER; [|discriminate]. cbn [rmap] in E. apply Ok_inj in E. subst q. unfold inactive_passes in Pq. cbn [snd] in Pq. pose proof (proj1 (sb_ranks_neg order _ tol So) Pq) as P3. apply rall_spec in ER.
  assert (Hp : In (nth i (rows r c g) [], nth i (rows r c s) []) (combine (rows r c g) (rows r c s))). { rewrite <- combine_nth by (rewrite !rows_length; auto). apply nth_In. rewrite combine_length, !rows_length. lia. }
  destruct (forall2_left _ _ _ ER _ Hp) as (b & Hb & Eb). destruct (P3 (snd b) ltac:(apply in_map; auto)) as (a & E2 & Ha). rewrite Z in Eb. unfold sb_row_check in Eb. rewrite norm_zeros, zeros_length in Eb.
  match type of Eb with context [gtb 0 ?x] => assert (G0 : gtb 0 x = false) by (apply gtb_false; apply Rmult_le_pos; auto; apply Rle_trans with 1; [lra|apply Rmax_r]) end. rewrite G0 in Eb.
  destruct (gauge_function_dual_strong _ _ _ _) as [(v, o)|] eqn:EG; [|discriminate]. cbn [rmap fst] in Eb. apply Ok_inj in Eb. subst b. cbn [snd] in E2. destruct v as [m|]; [|discriminate]. injection E2 as E2. exists m, o. split; auto. rewrite E2. exact Ha.
Qed.
Hypothesis (Hf : (20 < fuel0)%nat).
Theorem sb_near : 0 < l1 -> 0 < l2 -> l1 * sqrt (INR c) <= 10 ^ 5 * l2 -> forall S max_tries fuel l0 ls g pts pt v, right_size S -> group_strong_rules fuel P S true max_tries (l0 :: ls) (zeros (lp_size B)) g = Ok pts -> In pt pts -> gp_warned pt = false -> (1 / 2) ^ 50 <= alpha * gp_lagrange pt -> length v = (r * c)%nat ->
  block_objective B r c l1 l2 (gp_lagrange pt) (gp_beta pt) <= block_objective B r c l1 l2 (gp_lagrange pt) v + block_error r c l1 l2 (alpha * gp_lagrange pt) kkt_tol (gp_beta pt) v.
Proof.
  intros H1 H2 HA S max_tries fuel l0 ls g pts pt v RS E Hp W Hb Lv. destruct (sb_accepted S true max_tries fuel l0 ls g pts RS E) as (_ & F). rewrite Forall_forall in F. destruct (F pt Hp) as ((_ & Eb & _) & _ & A). destruct (A W) as (q & Eq & _ & Pq).
  assert (Lb : length (gp_beta pt) = lp_size B) by (rewrite Eb; apply (embed_length B)). assert (P50 : 0 < (1 / 2) ^ 50) by (apply pow_lt; lra). destruct (gp_alpha _ GP) as (Ha & _). change (lp_alpha B) with alpha in Ha. assert (0 < gp_lagrange pt) by nra.
  unfold block_objective. change (lp_alpha B) with alpha. rewrite Rplus_assoc. rewrite <- Rplus_assoc. apply (sb_sound order r c l1 l2 (sb_at (gp_lagrange pt) (gp_beta pt)) (gp_beta pt) (alpha * gp_lagrange pt) kkt_tol fuel0 (smooth_part B (gp_lagrange pt)) q v); auto; rewrite <- ?sb_size; auto.
  - unfold kkt_tol; lra.
  - apply (smooth_convex B GP). lra.
  - apply (path_gradient_right B GP); auto.
Qed.
Theorem sb_optimal : 0 <= l1 -> 0 <= l2 -> forall lam set b q v, 0 < lam -> (1 / 2) ^ 50 <= alpha * lam -> block_solves B r c l1 l2 lam set b -> let s := embed (lp_size B) (features (row_labels r c) set) b in
  sb_check order r c l1 l2 (path_gradient B s (t_lin X s) lam) s (alpha * lam) kkt_tol fuel0 = Ok q -> inactive_passes q -> length v = (r * c)%nat ->
  smooth_part B lam s + alpha * lam * block_pen r c l1 l2 s <= smooth_part B lam v + alpha * lam * ((1 + kkt_tol) * (1 + 2 / 10 ^ 6)) * block_pen r c l1 (l2 + / 10 ^ 5) v.
Proof.
  intros H1 H2 lam set b q v Hl Hb Sv s Eq Pq Lv. assert (Sz := sb_size). assert (LG : length (row_labels r c) = lp_size B) by (rewrite Sz; apply row_labels_length). assert (Ls : length s = (r * c)%nat) by (rewrite <- Sz; apply (embed_length B)).
  rewrite <- !block_sparse by auto. apply (sparse_nearly B (row_labels r c) (repeat l1 (r * c)) (fun _ => l2) GP LG) with (tol := kkt_tol) (fuel := fuel0); auto.
  - rewrite repeat_length, row_labels_length. auto.
  - apply repeat_forall. auto.
  - apply kkt_tol_pos.
  - destruct Sv as (S1 & S2 & S3). split; auto. split; [cbv zeta; eexists; reflexivity|]. intros y Ly. specialize (S3 y Ly). unfold block_objective in S3. cbv zeta. rewrite !block_sparse by (auto; rewrite <- Sz; apply (embed_length B)). exact S3.
  - intros h Hh Ns. assert (Hh' := Hh). change (row_labels r c) with (labels_from 0 r c) in Hh'. apply labels_from_in in Hh'. destruct Hh' as (_ & i & Hi & ->). fold s.
    assert (Lp : length (at_point B lam s) = (r * c)%nat) by (rewrite <- Sz; apply (path_gradient_right B GP lam s ltac:(rewrite Sz; exact Ls))).
    assert (Z := block_outside B (row_labels r c) (repeat l1 (r * c)) LG ltac:(rewrite repeat_length, row_labels_length; auto) set b (Z.of_nat i) Ns). fold s in Z. rewrite !block_rows in * by (auto; try lia; rewrite repeat_length; auto). rewrite rows_repeat by lia.
    apply (sb_zero_passes (at_point B lam s) s (alpha * lam) kkt_tol q i); auto; [apply kkt_tol_pos|lia|]. rewrite Z. f_equal. assert (Fr := rows_lengths r c s Ls). rewrite Forall_forall in Fr. apply Fr, nth_In. rewrite rows_length. lia.
  - rewrite Sz. auto.
Qed.
(** ** the largest multiplier *)
Hypothesis (H1 : 0 <= l1) (H2 : 0 <= l2) (Hp : 0 < l1 + l2).
Lemma zero_gradient : forall lam, sb_at lam (zeros (r * c)) = sb_at 1 (zeros (r * c)).
Proof.
  intros lam. unfold sb_at, path_gradient. f_equal. unfold enet_grad. apply map_ext. intros j. unfold enet_entry. replace (nth j (zeros (r * c)) 0) with 0 by (symmetry; apply nth_zeros). destruct (is0 _); ring.
Qed.
Lemma zero_optimal_iff : forall lam, 0 < lam -> ((forall v, length v = (r * c)%nat -> block_objective B r c l1 l2 lam (zeros (r * c)) <= block_objective B r c l1 l2 lam v) <-> dual_ball (r * c) (sparse_block r c l1 l2) (alpha * lam) (sb_at 1 (zeros (r * c)))).
Proof.
  intros lam Hl. assert (Sz := sb_size). assert (Lz : length (zeros (r * c)) = lp_size B) by (rewrite zeros_length; auto). assert (G := path_gradient_right B GP lam (zeros (r * c)) Lz). change (path_gradient B (zeros (r * c)) (t_lin (lp_X B) (zeros (r * c))) lam) with (sb_at lam (zeros (r * c))) in G. rewrite zero_gradient, Sz in G.
  assert (Al := alpha_lam B GP lam Hl). change (lp_alpha B) with alpha in Al. set (g := sb_at 1 (zeros (r * c))) in *. assert (Lg : length g = (r * c)%nat) by apply G.
  assert (PZ : block_pen r c l1 l2 (zeros (r * c)) = 0). { assert (Z := ga_zero _ _ (block_gauge r c l1 l2 H1 H2)). injection Z as Z. exact Z. }
  assert (Bo : dual_ball (r * c) (sparse_block r c l1 l2) (alpha * lam) g <-> dual_ball (r * c) (sparse_block r c l1 l2) (alpha * lam) (vopp g)).
  { assert (Half : forall u, length u = (r * c)%nat -> dual_ball (r * c) (sparse_block r c l1 l2) (alpha * lam) u -> dual_ball (r * c) (sparse_block r c l1 l2) (alpha * lam) (vopp u)).
    { intros u Lu H v s Lv Ev. assert (Lo : length (vopp v) = (r * c)%nat) by (unfold vopp; rewrite map_length; auto). specialize (H (vopp v) s Lo). rewrite dot_opp_l. rewrite (dot_comm u (vopp v)), dot_opp_l, (dot_comm v u) in H. apply H. rewrite <- Ev. unfold sparse_block. f_equal. f_equal.
      - f_equal. unfold ell1, vopp. rewrite map_map. f_equal. apply map_ext. intros; apply Rabs_Ropp.
      - f_equal. f_equal. unfold vopp. rewrite rows_map, map_map. apply map_ext. intros y. change (map Ropp y) with (vopp y). rewrite !ell2_norm. apply norm_opp. }
    split; intros H; [apply Half; auto|]. replace g with (vopp (vopp g)) by (unfold vopp; rewrite map_map; rewrite <- (map_id g) at 2; apply map_ext; intros; ring). apply Half; auto. unfold vopp; rewrite map_length; auto. }
  rewrite Bo. split.
  - intros M. unfold block_objective in M. change (lp_alpha B) with alpha in M. assert (Fr := row_first r c (smooth_part B lam) l1 l2 g (zeros (r * c)) (alpha * lam) G (zeros_length _) ltac:(lra) H1 H2 M).
    intros v s Lv Ev. injection Ev as <-. change (dot (vopp g) v <= alpha * lam * block_pen r c l1 l2 v). rewrite block_pen_rows by auto. assert (Lo : length (vopp g) = (r * c)%nat) by (unfold vopp; rewrite map_length; auto). rewrite (dot_by_rows r c) by auto. rewrite <- vsum_map_scal.
    unfold vopp. rewrite rows_map.
    assert (Q : forall gs zs vs : list vec, length gs = length zs -> length vs = length gs -> Forall (fun x => length x = c) gs -> Forall (fun x => x = zeros c) zs -> Forall (fun x => length x = c) vs -> (forall a x, In (a, x) (combine gs zs) -> sstat (alpha * lam) (repeat l1 c) l2 (vopp a) x) ->
      vsum (map (fun p => dot (fst p) (snd p)) (combine (map (map Ropp) gs) vs)) <= vsum (map (fun x => alpha * lam * group_pen (repeat l1 c) l2 x) vs)).
    { clear - Al. induction gs as [|a gs IH]; intros [|z zs] [|y vs] L1 L2 F1 F2 F3 St; try discriminate; [unfold vsum; simpl; lra|]. cbn [map combine fst snd]. rewrite !vsum_cons. specialize (IH zs vs ltac:(simpl in *; congruence) ltac:(simpl in *; congruence) (Forall_inv_tail F1) (Forall_inv_tail F2) (Forall_inv_tail F3) (fun a x H => St a x (or_intror H))).
      assert (S0 := St a z (or_introl eq_refl)). assert (Z := Forall_inv F2). cbv beta in Z. subst z. assert (Ly := Forall_inv F3). assert (La := Forall_inv F1). cbv beta in Ly, La. specialize (S0 y ltac:(unfold vopp; rewrite map_length; congruence)). rewrite group_pen_zeros in S0. replace (vsub y (zeros c)) with y in S0 by (subst c; clear; induction y as [|e y IH]; auto; unfold vsub, zeros in *; cbn [length repeat vzip]; rewrite <- IH; f_equal; ring). unfold vopp in S0. lra. }
    apply (Q (rows r c g) (rows r c (zeros (r * c))) (rows r c v)); auto; try (rewrite !rows_length; auto); try (apply rows_lengths; auto).
    apply Forall_forall. intros x Hx. apply (In_nth _ _ []) in Hx. destruct Hx as (i & Hi & <-). rewrite rows_length in Hi. apply (rows_repeat r c 0 i Hi).
  - intros D v Lv. unfold block_objective. change (lp_alpha B) with alpha. rewrite PZ. assert (T := convex_tangent (r * c) (smooth_part B lam) (zeros (r * c)) g v ltac:(rewrite <- Sz; apply (smooth_convex B GP); lra) G (zeros_length _) Lv). replace (vsub v (zeros (r * c))) with v in T by (rewrite <- Lv; clear; induction v as [|e y IH]; auto; unfold vsub, zeros in *; cbn [length repeat vzip]; rewrite <- IH; f_equal; ring).
    specialize (D v _ Lv eq_refl). fold (block_pen r c l1 l2 v) in D. rewrite dot_opp_l in D. lra.
Qed.
Theorem sb_lambda_max : forall prop nstep ls, (2 <= nstep)%nat -> sb_lagrange_sequence r c l1 l2 (sb_at 1 (zeros (r * c))) prop nstep alpha fuel0 = Ok ls ->
  let slack := (1 / 2) ^ 50 + / 10 ^ 10 * Rmax (norm (sb_at 1 (zeros (r * c)))) 1 / (l1 + l2) in let first := nth 0 ls 0 in
  length ls = nstep /\ 0 <= first /\ forall lam, 0 < lam ->
  ((1 + 2 / 10 ^ 6) * first + slack / alpha <= lam -> forall v, length v = (r * c)%nat -> block_objective B r c l1 l2 lam (zeros (r * c)) <= block_objective B r c l1 l2 lam v) /\
  ((forall v, length v = (r * c)%nat -> block_objective B r c l1 l2 lam (zeros (r * c)) <= block_objective B r c l1 l2 lam v) -> (1 - / 10 ^ 6) * first <= lam).
Proof.
  intros prop nstep ls Hn E slack first. assert (Sz := sb_size). assert (Lg : length (sb_at 1 (zeros (r * c))) = (r * c)%nat) by (rewrite <- Sz; apply (path_gradient_right B GP 1 (zeros (lp_size B)) (zeros_length _))). set (g := sb_at 1 (zeros (r * c))) in *.
  destruct (P_sgb3.block_norm_exists r c l1 l2 H1 H2 g Lg Hp) as (D & HD). destruct (P_sgb3.block_gauge_accurate r c l1 l2 H1 H2 g D fuel0 Lg Hf HD Hp) as (e & Ee & He). unfold sb_lagrange_sequence in E. rewrite Ee in E. cbn [rbind] in E. destruct e as [m|]; [|discriminate]. apply Ok_inj in E.
  destruct (gp_alpha _ GP) as (Ha & _). change (lp_alpha B) with alpha in Ha. assert (F0 : first = m / alpha). { unfold first. rewrite <- E, sequence_nth by (clear Hc; lia). cbn [INR]. unfold Rdiv at 2. rewrite Rmult_0_l, Rmult_0_r, exp_0. field. lra. }
  assert (P50 : 0 < (1 / 2) ^ 50) by (apply pow_lt; lra). assert (Sl : 0 <= / 10 ^ 10 * Rmax (norm g) 1 / (l1 + l2)). { apply Rmult_le_pos; [|left; apply Rinv_0_lt_compat; auto]. apply Rmult_le_pos; [lra|]. apply Rle_trans with 1; [lra|apply Rmax_r]. }
  assert (D0 : 0 <= D) by apply HD. assert (M0 : 0 <= m) by (destruct He as [(-> & _)|(? & _)]; lra). assert (Up : D <= (1 + 2 / 10 ^ 6) * m + slack) by (unfold slack; destruct He as [(-> & ?)|(? & _ & ?)]; lra). assert (Lo : (1 - / 10 ^ 6) * m <= D) by (destruct He as [(-> & ?)|(? & ? & _)]; lra).
  assert (Em : m = alpha * first) by (rewrite F0; field; lra). split; [rewrite <- E, map_length, rev_length, map_length; apply linspace_length|]. split; [rewrite F0; apply Rmult_le_pos; auto; left; apply Rinv_0_lt_compat; lra|]. intros lam Hl. rewrite zero_optimal_iff by auto. fold g. split.
  - intros H. assert (DL : D <= alpha * lam). { apply Rle_trans with (1 := Up). rewrite Em. apply (Rmult_le_compat_l alpha) in H; [|lra]. replace (alpha * ((1 + 2 / 10 ^ 6) * first + slack / alpha)) with ((1 + 2 / 10 ^ 6) * (alpha * first) + slack) in H by (field; lra). exact H. }
    intros v s Lv Ev. assert (S0 : 0 <= s) by (apply (ga_nonneg _ _ (block_gauge r c l1 l2 H1 H2) v s Lv Ev)). destruct HD as (_ & HB & _). specialize (HB v s Lv Ev). nra.
  - intros H. assert (DL : D <= alpha * lam) by (apply HD; auto; nra). rewrite Em in Lo. apply Rmult_le_reg_l with alpha; [lra|]. lra.
Qed.
End Path.
(** ** weights *)
Theorem sb_alpha_ignored : forall order grad func X r c l1 l2 a enet alpha fuel, sb_path order grad func X r c l1 l2 (Some a) enet alpha fuel = sb_path order grad func X r c l1 l2 None enet alpha fuel.
Proof. reflexivity. Qed.
Theorem sb_subsample_weights : forall order grad func X r c l1 l2 a enet alpha fuel, sb_subsample order grad func X r c l1 l2 (Some a) enet alpha fuel = sb_path order grad func X r c (l1 * a) (l2 * (1 - a)) None enet alpha fuel /\
  sb_subsample order grad func X r c l1 l2 None enet alpha fuel = sb_path order grad func X r c l1 l2 None enet alpha fuel.
Proof. intros. split; reflexivity. Qed.
Theorem sb_weights_differ : forall order grad func X enet alpha fuel, 
  gq_strong (sb_path order grad func X 1 1 1 1 (Some (1 / 2)) enet alpha fuel) [3 / 2] 1 1 = [false] /\ gq_strong (sb_path order grad func X 1 1 (1 * (1 / 2)) (1 * (1 - 1 / 2)) None enet alpha fuel) [3 / 2] 1 1 = [true].
Proof.
  intros. unfold sb_path, sb_strong. cbn [snd sb_weights gq_strong rows firstn skipn map repeat]. unfold inside_set_strong, soft_pos. cbn [vzip map]. rewrite !P_sgl7.norm1. rewrite (Rabs_pos_eq (3 / 2)) by lra. split.
  - rewrite Rmax_left by lra || rewrite Rmax_right by lra. match goal with |- context [Rle_dec ?a ?b] => destruct (Rle_dec a b) as [|N]; auto end. exfalso. apply N. rewrite Rabs_pos_eq by lra. lra.
  - rewrite Rmax_left by lra || rewrite Rmax_right by lra. match goal with |- context [Rle_dec ?a ?b] => destruct (Rle_dec a b) as [H|N]; auto end. exfalso. rewrite Rabs_pos_eq in H by lra. lra.
Qed.
