(** The optimality check of sparse group block paths. *)
From Coq Require Import Reals List Lra Lia Psatz Bool ZArith Permutation.
From Verif Require Import M_affine Vec Spec SpecAtom SpecConvex M_quad M_prox M_semi SpecPart SpecGroup M_mixed M_weighted M_group SpecSgl M_sgl SpecBlock M_block SpecSgb M_sgb P_quad P_prox P_calc P_part P_weighted P_gauge P_group P_group2 P_sgl P_search P_sgl2 P_sgl3 P_sgl5
  M_loss SpecLoss SpecSmooth P_smooth P_fista M_path SpecPath M_gpath SpecGpath SpecSgpath P_path P_gpath P_gpath3 P_sgpath P_sgpath2 P_sgpath3 P_sgpath4 P_sgpath5 P_sgpath6 M_sbpath SpecSbpath P_cones P_block P_sgb.
Import ListNotations.
Local Open Scope R_scope.

(** ** rows *)
Lemma rows_vzip : forall op r c x y, length x = (r * c)%nat -> length y = (r * c)%nat -> rows r c (vzip op x y) = map (fun p => vzip op (fst p) (snd p)) (combine (rows r c x) (rows r c y)).
Proof.
  intros op. induction r as [|r IH]; intros c x y Lx Ly; auto. cbn [rows combine map fst snd]. simpl in Lx, Ly.
  assert (F : forall k (a b : vec), length a = length b -> firstn k (vzip op a b) = vzip op (firstn k a) (firstn k b)). { clear. induction k; intros [|x a] [|y b] L; try discriminate; auto. cbn [firstn vzip]. f_equal. apply IHk. simpl in L. congruence. }
  assert (G : forall k (a b : vec), length a = length b -> skipn k (vzip op a b) = vzip op (skipn k a) (skipn k b)). { clear. induction k; intros [|x a] [|y b] L; try discriminate; auto. cbn [skipn vzip]. apply IHk. simpl in L. congruence. }
  rewrite F, G by congruence. f_equal. apply IH; rewrite skipn_length; lia.
Qed.
Lemma rows_map : forall f r c x, rows r c (map f x) = map (map f) (rows r c x).
Proof. intros f. induction r as [|r IH]; intros c x; auto. cbn [rows map]. rewrite <- IH, firstn_map, skipn_map. reflexivity. Qed.
Lemma dot_by_rows : forall r c x y, length x = (r * c)%nat -> length y = (r * c)%nat -> dot x y = vsum (map (fun p => dot (fst p) (snd p)) (combine (rows r c x) (rows r c y))).
Proof.
  induction r as [|r IH]; intros c x y Lx Ly; simpl in Lx, Ly; [destruct x; [reflexivity|discriminate]|]. cbn [rows combine map fst snd]. rewrite vsum_cons. rewrite <- IH by (rewrite skipn_length; lia).
  rewrite <- (firstn_skipn c x) at 1. rewrite <- (firstn_skipn c y) at 1. rewrite P_cones.dot_app; auto. rewrite !firstn_length. lia.
Qed.
Lemma repeat_pen : forall l1 n w x, length x = n -> group_pen (repeat l1 n) w x = l1 * ell1 x + w * ell2 x.
Proof.
  intros l1 n w x L. unfold group_pen. rewrite ell2_norm. f_equal. subst n. unfold ell1. induction x as [|a x IH]; cbn [length repeat map]; [unfold vmul, vsum; simpl; ring|]. unfold vmul in *. cbn [vzip]. rewrite !vsum_cons, IH. ring.
Qed.
Lemma block_pen_rows : forall r c l1 l2 x, length x = (r * c)%nat -> block_pen r c l1 l2 x = vsum (map (group_pen (repeat l1 c) l2) (rows r c x)).
Proof.
  intros r c l1 l2 x Lx. unfold block_pen. rewrite (block_l1 r c) by auto. assert (F := rows_lengths r c x Lx). induction F as [|row l Hr F IH]; cbn [map]; [unfold vsum; simpl; ring|]. rewrite !vsum_cons, repeat_pen by auto. lra.
Qed.
Lemma repeat_forall : forall (P : R -> Prop) a n, P a -> Forall P (repeat a n).
Proof. intros P a n H. induction n; constructor; auto. Qed.
Lemma repeat_norm : forall a n, 0 <= a -> norm (repeat a n) = a * sqrt (INR n).
Proof.
  intros a n Ha. unfold norm. replace (sqn (repeat a n)) with (INR n * (a * a)); [|induction n as [|n IH]; [simpl; unfold sqn, dot, vsum; simpl; ring|rewrite S_INR; cbn [repeat]; rewrite sqn_cons, <- IH; ring]].
  rewrite sqrt_mult_alt by apply pos_INR. rewrite sqrt_square by auto. ring.
Qed.
(** ** what passing means *)
Definition row_ok (l1 l2 total lam tol : R) (fuel : nat) (p : vec * vec) : Prop := exists q, sb_row_check l1 l2 total lam tol fuel p = Ok q /\ fst q = false /\ exists a, snd q = Fin a /\ a <= 1 + tol.
Lemma order_below : forall order l j, sorts order -> (j < length l)%nat -> (nth j (order l) 0%nat < length l)%nat.
Proof. intros order l j So Hj. destruct (So l) as (Pm & _). assert (H : In (nth j (order l) 0%nat) (seq 0 (length l))); [|apply in_seq in H; lia]. apply (Permutation_in _ Pm), nth_In. rewrite (Permutation_length Pm), seq_length. auto. Qed.
Lemma sb_ranks_neg : forall order terms tol, sorts order -> (Forall (fun a => a < 0) (sb_ranks order terms tol) <-> forall e, In e terms -> exists a, e = Fin a /\ a <= 1 + tol).
Proof.
  intros order terms tol So. unfold sb_ranks. rewrite Forall_map, Forall_forall. split.
  - intros H e He. apply (In_nth _ _ (Fin 0)) in He. destruct He as (j & Hj & <-). specialize (H j ltac:(apply in_seq; lia)). assert (B := lt_INR _ _ (order_below order terms j So Hj)). destruct (nth j terms (Fin 0)) as [a|]; [|lra]. exists a. split; auto. destruct (Rle_dec a (1 + tol)); lra.
  - intros H j Hj. apply in_seq in Hj. destruct (H (nth j terms (Fin 0)) ltac:(apply nth_In; lia)) as (a & -> & Ha). destruct (Rle_dec a (1 + tol)); lra.
Qed.
Lemma sb_passes_iff : forall order r c l1 l2 grad s lam tol fuel, sorts order -> let total := vsum (map norm (rows r c s)) in
  ((exists q, sb_check order r c l1 l2 grad s lam tol fuel = Ok q /\ passes q) <-> forall p, In p (combine (rows r c grad) (rows r c s)) -> row_ok l1 l2 total lam tol fuel p).
Proof.
  intros order r c l1 l2 grad s lam tol fuel So total. unfold sb_check. fold total. split.
  - intros (q & E & P1 & P2). destruct (rall _ _) as [rs|] eqn:ER; [|discriminate]. cbn [rmap] in E. apply Ok_inj in E. subst q. cbn [fst snd] in P1, P2. pose proof (proj1 (sb_ranks_neg order _ tol So) P2) as P3. apply rall_spec in ER. intros p Hp. destruct (forall2_left _ _ _ ER p Hp) as (b & Hb & Eb). exists b. split; auto.
    split; [|apply P3, in_map; auto]. rewrite Forall_forall in P1. apply P1, in_map. auto.
  - intros H. destruct (rall_ok (sb_row_check l1 l2 total lam tol fuel) (combine (rows r c grad) (rows r c s))) as (rs & ER); [intros p Hp; destruct (H p Hp) as (b & E & _); eauto|]. rewrite ER. cbn [rmap]. eexists. split; [reflexivity|]. apply rall_spec in ER.
    assert (Each : forall b, In b rs -> fst b = false /\ exists a, snd b = Fin a /\ a <= 1 + tol). { intros b Hb. destruct (forall2_right _ _ _ ER b Hb) as (p & Hp & E). destruct (H p Hp) as (b' & E' & K). rewrite E in E'. apply Ok_inj in E'. subst b'. auto. }
    split; cbn [fst snd]; [rewrite Forall_map, Forall_forall; intros b Hb; apply Each; auto|]. apply sb_ranks_neg; auto. intros e He. apply in_map_iff in He. destruct He as (b & <- & Hb). apply Each; auto.
Qed.
(** ** a row that passes *)
Lemma row_sound : forall l1 l2 total lam tol fuel g s y, (20 < fuel)%nat -> length g = length s -> length y = length s -> 0 < l1 -> 0 < l2 -> l1 * sqrt (INR (length s)) <= 10 ^ 5 * l2 -> (1 / 2) ^ 50 <= lam -> 0 <= tol < 1 ->
  row_ok l1 l2 total lam tol fuel (g, s) -> let a := repeat l1 (length s) in
  dot (vopp g) (vsub y s) <= lam * (group_pen a l2 y - group_pen a l2 s) + row_error l1 l2 lam tol total s (vsub y s).
Proof.
  intros l1 l2 total lam tol fuel g s y Hf Lg Ly H1 H2 HA Hlam Ht (q & E & Q1 & b & Q2 & Qb) a. assert (P50 : 0 < (1 / 2) ^ 50) by (apply pow_lt; lra). assert (La : length a = length (vopp g)) by (unfold a, vopp; rewrite repeat_length, map_length; auto). assert (Lo : length (vopp g) = length g) by (unfold vopp; apply map_length).
  unfold sb_row_check in E. fold a in E. unfold row_error. fold a. destruct (Rlt_dec _ _) as [A|A].
  - replace (gtb (norm s) (tol * Rmax total 1)) with true in E by (symmetry; apply gtb_true; auto). destruct (sg_active_check _ _ _ _ _ _ _) as [b'|] eqn:EA; [|discriminate]. cbn [rmap] in E. apply Ok_inj in E. subst q. cbn [fst] in Q1. subst b'.
    apply (active_sound _ _ _ _ _ _ fuel); auto; try congruence; [apply repeat_forall; lra|unfold a; rewrite repeat_norm by lra; auto|lra|]. intros Z. assert (0 <= tol * Rmax total 1) by (apply Rmult_le_pos; [lra|assert (Q := Rmax_r total 1); lra]). lra.
  - replace (gtb (norm s) (tol * Rmax total 1)) with false in E by (symmetry; apply gtb_false; lra). destruct (gauge_function_dual_strong _ _ _ _) as [(e & o)|] eqn:EG; [|discriminate]. cbn [rmap fst] in E. apply Ok_inj in E. subst q. cbn [snd] in Q2. destruct e as [m|]; [|discriminate]. injection Q2 as <-.
    apply (inactive_sound _ _ _ _ _ _ fuel _ m o); auto; try congruence; try lra. apply repeat_forall. lra.
Qed.
Lemma rows_sound : forall r c f l1 l2 lam grad s v (err : vec -> vec -> R), convex_on (r * c) f -> is_gradient (r * c) f s grad -> length s = (r * c)%nat -> length v = (r * c)%nat ->
  (forall g x y, In (g, x) (combine (rows r c grad) (rows r c s)) -> length g = c -> length x = c -> length y = c -> dot (vopp g) (vsub y x) <= lam * (group_pen (repeat l1 c) l2 y - group_pen (repeat l1 c) l2 x) + err x (vsub y x)) ->
  f s + lam * block_pen r c l1 l2 s <= f v + lam * block_pen r c l1 l2 v + vsum (map (fun p => err (fst p) (snd p)) (combine (rows r c s) (rows r c (vsub v s)))).
Proof.
  intros r c f l1 l2 lam grad s v err C G Ls Lv H. assert (T := convex_tangent (r * c) f s grad v C G Ls Lv). destruct G as (Lg & _). rewrite !block_pen_rows by auto. assert (Lvs : length (vsub v s) = (r * c)%nat) by vlen. rewrite (dot_by_rows r c) in T by auto.
  unfold vsub in T, Lvs |- *. rewrite rows_vzip in T |- * by auto. assert (Fg := rows_lengths r c grad Lg). assert (Fs := rows_lengths r c s Ls). assert (Fv := rows_lengths r c v Lv). assert (N1 := rows_length r c grad). assert (N2 := rows_length r c s). assert (N3 := rows_length r c v).
  enough (K : forall (gs ss vs : list vec), length gs = length ss -> length vs = length ss -> Forall (fun row => length row = c) gs -> Forall (fun row => length row = c) ss -> Forall (fun row => length row = c) vs ->
     (forall g x y, In (g, x) (combine gs ss) -> length g = c -> length x = c -> length y = c -> dot (vopp g) (vsub y x) <= lam * (group_pen (repeat l1 c) l2 y - group_pen (repeat l1 c) l2 x) + err x (vsub y x)) ->
     lam * vsum (map (group_pen (repeat l1 c) l2) ss) <= lam * vsum (map (group_pen (repeat l1 c) l2) vs) + vsum (map (fun p => dot (fst p) (snd p)) (combine gs (map (fun p => vzip Rminus (fst p) (snd p)) (combine vs ss)))) + vsum (map (fun p => err (fst p) (snd p)) (combine ss (map (fun p => vzip Rminus (fst p) (snd p)) (combine vs ss))))).
  { specialize (K (rows r c grad) (rows r c s) (rows r c v) ltac:(congruence) ltac:(congruence) Fg Fs Fv H). lra. }
  clear. induction gs as [|g gs IH]; intros [|x ss] [|y vs] L1 L2 Fg Fs Fv H; try discriminate; [cbn [map combine]; unfold vsum; simpl; lra|]. cbn [map combine fst snd]. rewrite !vsum_cons.
  specialize (IH ss vs ltac:(simpl in L1; congruence) ltac:(simpl in L2; congruence) (Forall_inv_tail Fg) (Forall_inv_tail Fs) (Forall_inv_tail Fv) ltac:(intros g' x' y' Hi; apply H; right; auto)).
  assert (K := H g x y ltac:(left; auto) (Forall_inv Fg) (Forall_inv Fs) (Forall_inv Fv)). rewrite dot_opp_l in K. unfold vsub in K. cbv beta in K. lra.
Qed.
Theorem sb_sound : forall order r c l1 l2 grad s lam tol fuel f q v, sorts order -> length s = (r * c)%nat -> length v = (r * c)%nat -> (20 < fuel)%nat -> 0 < l1 -> 0 < l2 -> l1 * sqrt (INR c) <= 10 ^ 5 * l2 -> (1 / 2) ^ 50 <= lam -> 0 <= tol < 1 ->
  convex_on (r * c) f -> is_gradient (r * c) f s grad -> sb_check order r c l1 l2 grad s lam tol fuel = Ok q -> passes q ->
  f s + lam * block_pen r c l1 l2 s <= f v + lam * block_pen r c l1 l2 v + block_error r c l1 l2 lam tol s v.
Proof.
  intros order r c l1 l2 grad s lam tol fuel f q v So Ls Lv Hf H1 H2 HA Hlam Ht C G E Pq. assert (Each := proj1 (sb_passes_iff order r c l1 l2 grad s lam tol fuel So) ltac:(eauto)). cbv zeta in Each. unfold block_error.
  apply (rows_sound r c f l1 l2 lam grad s v (row_error l1 l2 lam tol (vsum (map norm (rows r c s))))); auto. intros g x y Hi Lg Lx Ly. specialize (Each _ Hi). assert (K := row_sound l1 l2 _ lam tol fuel g x y Hf ltac:(congruence) ltac:(congruence) H1 H2 ltac:(rewrite Lx; auto) Hlam Ht Each). cbv zeta in K. rewrite Lx in K. exact K.
Qed.
(** ** at a minimizer *)
Lemma split_rows : forall c (fs : list (vec -> R)) (ss : list vec), length ss = length fs -> Forall (fun x => length x = c) ss ->
  (forall ys : list vec, length ys = length ss -> Forall (fun x => length x = c) ys -> vsum (map (fun p => fst p (snd p)) (combine fs ss)) <= vsum (map (fun p => fst p (snd p)) (combine fs ys))) ->
  forall f s y, In (f, s) (combine fs ss) -> length y = c -> f s <= f y.
Proof.
  intros c. induction fs as [|f fs IH]; intros [|s ss] L F H f' s' y Hi Ly; try discriminate; [destruct Hi|]. destruct Hi as [Hi|Hi].
  - injection Hi as <- <-. specialize (H (y :: ss) ltac:(reflexivity) ltac:(constructor; [auto|apply (Forall_inv_tail F)])). cbn [combine map fst snd] in H. rewrite !vsum_cons in H. eapply Rplus_le_reg_r. exact H.
  - apply (IH ss ltac:(simpl in L; congruence) (Forall_inv_tail F)) with (s := s'); auto. intros ys Lys Fys. specialize (H (s :: ys) ltac:(simpl; congruence) ltac:(constructor; [apply (Forall_inv F)|auto])). cbn [combine map fst snd] in H. rewrite !vsum_cons in H. lra.
Qed.
Lemma combine_same : forall {A B} (h : A -> B) l, combine l (map h l) = map (fun a => (a, h a)) l.
Proof. intros A B h. induction l as [|a l IH]; auto. cbn [map combine]. rewrite IH. auto. Qed.
Lemma block_segment : forall r c l1 l2 s d t, 0 <= l1 -> 0 <= l2 -> length s = (r * c)%nat -> length d = (r * c)%nat -> 0 <= t <= 1 -> block_pen r c l1 l2 (vadd s (vscal t d)) <= (1 - t) * block_pen r c l1 l2 s + t * block_pen r c l1 l2 (vadd s d).
Proof.
  intros r c l1 l2 s d t H1 H2 Ls Ld Ht. assert (Lt : length (vscal t d) = (r * c)%nat) by vlen. rewrite !block_pen_rows by vlen. unfold vadd. rewrite !rows_vzip by auto. unfold vscal. rewrite rows_map. assert (Fs := rows_lengths r c s Ls). assert (Fd := rows_lengths r c d Ld). assert (N1 := rows_length r c s). assert (N2 := rows_length r c d).
  revert Fs Fd N1 N2. generalize (rows r c s) (rows r c d). clear Ls Ld Lt s d. intros ss ds Fs Fd <-. revert ds Fd. induction ss as [|x ss IH]; intros [|y ds] Fd L; try discriminate; [unfold vsum; simpl; lra|]. cbn [map combine fst snd]. rewrite !vsum_cons.
  specialize (IH (Forall_inv_tail Fs) ds (Forall_inv_tail Fd) ltac:(simpl in L; congruence)). assert (Hx := Forall_inv Fs). assert (Hy := Forall_inv Fd). cbv beta in Hx, Hy. assert (K := group_pen_segment (repeat l1 c) l2 x y t (repeat_forall _ l1 c H1) H2 ltac:(congruence) Ht). unfold vadd, vscal in K. lra.
Qed.
Lemma row_first : forall r c f l1 l2 grad s lam, is_gradient (r * c) f s grad -> length s = (r * c)%nat -> 0 <= lam -> 0 <= l1 -> 0 <= l2 ->
  (forall v, length v = (r * c)%nat -> f s + lam * block_pen r c l1 l2 s <= f v + lam * block_pen r c l1 l2 v) ->
  forall g x, In (g, x) (combine (rows r c grad) (rows r c s)) -> sstat lam (repeat l1 c) l2 (vopp g) x.
Proof.
  intros r c f l1 l2 grad s lam G Ls Hl H1 H2 M. assert (Lg : length grad = (r * c)%nat) by apply G.
  assert (K : forall v, length v = (r * c)%nat -> dot grad s + lam * block_pen r c l1 l2 s <= dot grad v + lam * block_pen r c l1 l2 v).
  { intros v Lv. assert (F := P_problem.first_order (r * c) f (fun x => lam * block_pen r c l1 l2 x) s grad (vsub v s) G ltac:(vlen)). cbv beta in F. rewrite (vadd_vsub s v) in F by congruence. rewrite dot_sub_r in F by congruence. enough (0 <= dot grad v - dot grad s + lam * block_pen r c l1 l2 v - lam * block_pen r c l1 l2 s) by lra. apply F; auto.
    - intros t Ht. assert (K := block_segment r c l1 l2 s (vsub v s) t H1 H2 Ls ltac:(vlen) Ht). rewrite (vadd_vsub s v) in K by congruence. apply (Rmult_le_compat_l lam) in K; auto. lra.
    - intros t Ht. apply M. vlen. }
  intros g x Hi y Ly. assert (Fg := rows_lengths r c grad Lg). assert (Fs := rows_lengths r c s Ls). assert (Fc := Fg). rewrite Forall_forall in Fc. assert (Hg : length g = c) by (apply Fc; eapply in_combine_l; eauto). assert (Hx : length x = c) by (rewrite Forall_forall in Fs; apply Fs; eapply in_combine_r; eauto). unfold vopp in Ly. rewrite map_length in Ly.
  set (h := fun g : vec => fun z : vec => dot g z + lam * group_pen (repeat l1 c) l2 z). assert (N1 := rows_length r c grad). assert (N2 := rows_length r c s).
  assert (Sum : forall v, length v = (r * c)%nat -> dot grad v + lam * block_pen r c l1 l2 v = vsum (map (fun p => fst p (snd p)) (combine (map h (rows r c grad)) (rows r c v)))).
  { intros v Lv. rewrite (dot_by_rows r c), block_pen_rows by auto. assert (N3 := rows_length r c v). revert N1 N3. generalize (rows r c grad) (rows r c v). intros gs vs. clear -h. intros <-. revert vs. induction gs as [|g0 gs IH]; intros [|v0 vs] L; try discriminate; [unfold vsum; simpl; ring|]. cbn [map combine fst snd]. rewrite !vsum_cons. rewrite <- IH by (simpl in L; congruence). unfold h. ring. }
  assert (S2 := split_rows c (map h (rows r c grad)) (rows r c s) ltac:(rewrite map_length; congruence) Fs). assert (Q : h g x <= h g y).
  { apply S2; [| |congruence].
    - intros ys Lys Fys. assert (Lc : length (concat ys) = (r * c)%nat). { rewrite <- N2, <- Lys. clear -Fys. induction Fys as [|a l Ha F IH]; auto. cbn [concat length]. rewrite app_length, IH, Ha. reflexivity. }
      assert (K' := K (concat ys) Lc). rewrite !Sum in K' by auto. replace (rows r c (concat ys)) with ys in K'; auto. symmetry. rewrite <- N2, <- Lys. apply rows_concat. auto.
    - clear -Hi. revert Hi. generalize (rows r c grad) (rows r c s). intros gs. induction gs as [|a gs IH]; intros [|b ss] Hi; try destruct Hi as [Hi|Hi]; try contradiction; cbn [map combine]; [left; injection Hi as <- <-; auto|right; auto]. }
  unfold h in Q. rewrite dot_opp_l, dot_sub_r by congruence. lra.
Qed.
Theorem sb_complete : forall order r c l1 l2 grad s lam tol fuel f, sorts order -> length s = (r * c)%nat -> (20 < fuel)%nat -> 0 <= l1 -> resolved (repeat l1 c) l2 lam tol -> (1 / 2) ^ 49 <= lam <= 2 ^ 50 -> 2 / 10 ^ 6 <= tol ->
  is_gradient (r * c) f s grad -> (forall v, length v = (r * c)%nat -> f s + lam * block_pen r c l1 l2 s <= f v + lam * block_pen r c l1 l2 v) ->
  exists q, sb_check order r c l1 l2 grad s lam tol fuel = Ok q /\ passes q.
Proof.
  intros order r c l1 l2 grad s lam tol fuel f So Ls Hf H1 Hr Hlam Ht G M. assert (P49 : 0 < (1 / 2) ^ 49) by (apply pow_lt; lra). assert (H2 : 0 < l2) by apply Hr. apply sb_passes_iff; auto. intros (g & x) Hi.
  assert (St := row_first r c f l1 l2 grad s lam G Ls ltac:(lra) H1 ltac:(lra) M g x Hi). assert (Lg : length grad = (r * c)%nat) by apply G. assert (Hg : length g = c) by (assert (F := rows_lengths r c grad Lg); rewrite Forall_forall in F; apply F; eapply in_combine_l; eauto). assert (Hx : length x = c) by (assert (F := rows_lengths r c s Ls); rewrite Forall_forall in F; apply F; eapply in_combine_r; eauto).
  assert (Lo : length (vopp g) = c) by (unfold vopp; rewrite map_length; auto). assert (La : length (repeat l1 c) = length (vopp g)) by (rewrite repeat_length; auto). unfold row_ok, sb_row_check. rewrite Hx. set (total := vsum (map norm (rows r c s))). destruct (gtb (norm x) (tol * Rmax total 1)) eqn:A.
  - apply gtb_true in A. rewrite active_complete; auto; [|congruence|apply repeat_forall; auto|lra|].
    + eexists. split; [reflexivity|]. cbn [fst snd]. split; auto. exists 0. split; [auto|lra].
    + intros Z. assert (0 <= tol * Rmax total 1) by (apply Rmult_le_pos; [lra|assert (Q := Rmax_r total 1); lra]). lra.
  - destruct (inactive_complete (repeat l1 c) l2 (vopp g) lam fuel) as (m & o & E & Hm); auto; [apply repeat_forall; auto|lra|lra|apply (stat_ball _ _ _ x); auto; [congruence|apply repeat_forall; auto|lra|lra]|]. rewrite E. cbn [rmap fst]. eexists. split; [reflexivity|]. cbn [fst snd]. split; auto. eexists. split; [reflexivity|]. lra.
Qed.
