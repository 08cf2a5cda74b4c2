(** The optimality check of the group lasso path. *)
From Coq Require Import Reals List Lra Lia Arith Bool ZArith Permutation.
From Verif Require Import M_affine SpecAffine P_affine P_affine2 M_loss SpecLoss SpecSmooth P_smooth Vec Spec SpecConvex M_quad M_prox M_semi M_weighted P_quad P_calc P_sep P_feas M_problem M_cv SpecCv P_cv M_path SpecPath P_path P_path2
  SpecPart SpecGroup M_mixed M_group SpecGatom P_part P_group P_sgl5 M_gpath SpecGpath.
From Verif Require P_problem P_fista2.
Import ListNotations.
Local Open Scope R_scope.

Lemma Rabs_inv : forall a b, Rabs a <= b -> - b <= a <= b.
Proof. intros a b H. unfold Rabs in H. destruct (Rcase_abs a); lra. Qed.
Lemma vsum_perm : forall {A} (f : A -> R) l l', Permutation l l' -> vsum (map f l) = vsum (map f l').
Proof. intros A f l l' H. induction H; cbn [map]; rewrite ?vsum_cons; lra. Qed.
(** ** one group *)
(** no direction d in the group improves *)
Definition gstat (c : R) (g a : vec) : Prop := forall d, length d = length a -> 0 <= dot g d + c * norm (vadd a d) - c * norm a.
Lemma vadd_opp : forall a : vec, vadd a (vopp a) = zeros (length a).
Proof. induction a as [|x a IH]; auto. unfold vadd, vopp in *. cbn [map vzip length zeros repeat]. unfold zeros in IH. rewrite IH. f_equal. ring. Qed.
Lemma vadd_self : forall a : vec, vadd a a = vscal 2 a.
Proof. induction a as [|x a IH]; auto. unfold vadd, vscal in *. cbn [map vzip]. rewrite IH. f_equal. ring. Qed.
Lemma gstat_dot : forall c g a, length g = length a -> gstat c g a -> dot g a = - c * norm a.
Proof.
  intros c g a Lg H. assert (A := H (vopp a) ltac:(unfold vopp; rewrite map_length; auto)). rewrite vadd_opp, norm_zeros, dot_opp_r in A. assert (B := H a eq_refl). rewrite vadd_self, norm_scal, Rabs_right in B by lra. lra.
Qed.
Lemma vadd_vsub : forall a b : vec, length a = length b -> vadd a (vsub b a) = b.
Proof. induction a as [|x a IH]; intros [|y b] L; try discriminate; auto. unfold vadd, vsub in *. cbn [vzip]. rewrite IH by (cbn in L; congruence). f_equal. ring. Qed.
Lemma gstat_norm : forall c g a, length g = length a -> 0 <= c -> gstat c g a -> norm g <= c.
Proof.
  intros c g a Lg Hc H. assert (D := gstat_dot c g a Lg H). assert (Lo : length (vopp g) = length a) by (unfold vopp; rewrite map_length; auto). assert (K := H (vsub (vopp g) a) ltac:(unfold vsub; apply vzip_length2; auto)).
  rewrite vadd_vsub in K by auto. rewrite dot_sub_r in K by congruence. rewrite dot_opp_r, norm_opp, D in K. change (dot g g) with (sqn g) in K. rewrite <- norm_sq in K. assert (N := norm_nonneg g). destruct (Req_dec (norm g) 0) as [E|E]; [lra|]. nra.
Qed.
Lemma gstat_active : forall c g a, length g = length a -> 0 <= c -> norm a <> 0 -> gstat c g a -> norm (vadd (map (fun x => c * x / norm a) a) g) = 0.
Proof.
  intros c g a Lg Hc Na H. assert (D := gstat_dot c g a Lg H). assert (N := gstat_norm c g a Lg Hc H). assert (Ng := norm_nonneg g). assert (Pa := norm_nonneg a).
  assert (E : map (fun x => c * x / norm a) a = vscal (c / norm a) a). { unfold vscal. apply map_ext. intros. unfold Rdiv. ring. } rewrite E.
  assert (S0 : sqn (vadd (vscal (c / norm a) a) g) <= 0).
  { rewrite sqn_add by (unfold vscal; rewrite map_length; auto). rewrite sqn_scal, dot_scal_l, (dot_comm a g), D. rewrite <- (norm_sq a), <- (norm_sq g). replace (c / norm a * (c / norm a) * (norm a * norm a)) with (c * c) by (field; auto). replace (c / norm a * (- c * norm a)) with (- (c * c)) by (field; auto). nra. }
  assert (S1 := sqn_nonneg (vadd (vscal (c / norm a) a) g)). set (z := vadd (vscal (c / norm a) a) g) in *. unfold norm. replace (sqn z) with 0 by lra. apply sqrt_0.
Qed.
(** one group that passes *)
Lemma group_sound_active : forall c g a b t, length g = length a -> length b = length a -> 0 <= c -> norm a <> 0 -> norm (vadd (map (fun x => c * x / norm a) a) g) <= t -> c * norm a <= c * norm b + dot g (vsub b a) + t * norm (vsub b a).
Proof.
  intros c g a b t Lg Lb Hc Na H. assert (Pa := norm_nonneg a). assert (E : map (fun x => c * x / norm a) a = vscal (c / norm a) a). { unfold vscal. apply map_ext. intros. unfold Rdiv. ring. } rewrite E in H. set (u := vscal (c / norm a) a) in *.
  assert (Lu : length u = length a) by (unfold u, vscal; apply map_length). assert (Ls : length (vsub b a) = length a) by (unfold vsub; apply vzip_length2; auto).
  assert (K := P_fista2.cauchy_schwarz_abs (vadd u g) (vsub b a) ltac:(rewrite Ls; unfold vadd; apply vzip_length2; congruence)). apply Rabs_inv in K.
  rewrite dot_add_l in K by congruence. assert (Du : dot u (vsub b a) <= c * norm b - c * norm a).
  { unfold u. rewrite dot_scal_l, dot_sub_r by congruence. change (dot a a) with (sqn a). rewrite <- norm_sq. assert (C := cauchy_schwarz a b ltac:(congruence)). assert (Q : 0 <= c / norm a) by (apply Rmult_le_pos; [lra|]; left; apply Rinv_0_lt_compat; lra).
    apply Rle_trans with (c / norm a * (norm a * norm b - norm a * norm a)); [apply Rmult_le_compat_l; lra|]. right. field. auto. }
  assert (Nn := norm_nonneg (vsub b a)). assert (norm (vadd u g) * norm (vsub b a) <= t * norm (vsub b a)) by (apply Rmult_le_compat_r; auto). lra.
Qed.
Lemma group_sound_bound : forall c g a b t, length g = length a -> length b = length a -> 0 <= c -> norm a = 0 -> norm g <= c + t -> c * norm a <= c * norm b + dot g (vsub b a) + t * norm (vsub b a).
Proof.
  intros c g a b t Lg Lb Hc Na H. apply norm_eq_zero in Na as Za. assert (Ls : length (vsub b a) = length a) by (unfold vsub; apply vzip_length2; auto). assert (K := P_fista2.cauchy_schwarz_abs g (vsub b a) ltac:(congruence)). apply Rabs_inv in K.
  assert (Eb : norm b = norm (vsub b a)). { rewrite Za. f_equal. clear - Lb. revert b Lb. induction (length a) as [|k IH]; intros [|x b] L; try discriminate; auto. unfold vsub, zeros in *. cbn [repeat vzip]. rewrite <- IH by (cbn in L; congruence). f_equal. ring. }
  rewrite Na, Eb. assert (Nn := norm_nonneg (vsub b a)). assert (norm g * norm (vsub b a) <= (c + t) * norm (vsub b a)) by (apply Rmult_le_compat_r; auto). lra.
Qed.
Lemma group_sound_free : forall g a b t, length g = length a -> length b = length a -> norm g <= t -> 0 <= dot g (vsub b a) + t * norm (vsub b a).
Proof.
  intros g a b t Lg Lb H. assert (Ls : length (vsub b a) = length a) by (unfold vsub; apply vzip_length2; auto). assert (K := P_fista2.cauchy_schwarz_abs g (vsub b a) ltac:(congruence)). apply Rabs_inv in K. assert (Nn := norm_nonneg (vsub b a)). assert (norm g * norm (vsub b a) <= t * norm (vsub b a)) by (apply Rmult_le_compat_r; auto). lra.
Qed.

(** ** masks and ranks *)
Lemma ranks_of_length : forall terms tol, length (ranks_of terms tol) = length terms.
Proof. intros. unfold ranks_of. rewrite map_length, seq_length. auto. Qed.
Lemma ranks_of_sign : forall terms tol j, (j < length terms)%nat -> 0 <= nth j (ranks_of terms tol) 0 <-> 1 + tol < nth j terms 0.
Proof.
  intros terms tol j Hj. unfold ranks_of. rewrite (nth_map_seq R (fun j => if Rle_dec (nth j terms 0) (1 + tol) then -1 else INR (length terms) - rankdata terms j)) by auto.
  destruct (Rle_dec (nth j terms 0) (1 + tol)); split; intros; try lra. assert (X := rank_le terms j Hj). lra.
Qed.
Lemma ranks_of_neg : forall terms tol, Forall (fun a => a < 0) (ranks_of terms tol) <-> Forall (fun a => a <= 1 + tol) terms.
Proof.
  intros terms tol. rewrite !Forall_forall. split; intros H a Ha; apply (In_nth _ _ 0) in Ha; destruct Ha as (j & Hj & <-).
  - destruct (Rle_dec (nth j terms 0) (1 + tol)) as [|N]; auto. exfalso. assert (Q := proj2 (ranks_of_sign terms tol j Hj) ltac:(lra)). assert (V := H (nth j (ranks_of terms tol) 0) ltac:(apply nth_In; rewrite ranks_of_length; auto)). lra.
  - rewrite ranks_of_length in Hj. assert (V := H (nth j terms 0) ltac:(apply nth_In; auto)). destruct (Rlt_dec (nth j (ranks_of terms tol) 0) 0) as [|N]; auto. exfalso. assert (Q := proj1 (ranks_of_sign terms tol j Hj) ltac:(lra)). lra.
Qed.
Lemma g_passes_iff : forall groups weights grad s lam tol, passes (g_check groups weights grad s lam tol) <-> forall g, In g groups -> g_active_fails groups weights grad s lam tol g = false /\ g_inactive_term groups weights grad s lam g <= 1 + tol.
Proof.
  intros. unfold passes, g_check. cbn [fst snd]. rewrite ranks_of_neg, !Forall_forall. assert (M : forall g, In g (g_ids groups) <-> In g groups) by (intros; apply sorted_unique_in). split.
  - intros (A & B) g Hg. apply M in Hg. split; [apply A|apply B]; apply in_map_iff; eauto.
  - intros H. split; intros b Hb; apply in_map_iff in Hb; destruct Hb as (g & <- & Hg); apply H, M; auto.
Qed.
Lemma mean_warr : forall groups weights, mean_of (g_warr groups weights) = mean_group_weight groups (group_weight weights groups).
Proof.
  intros. unfold mean_of, mean_group_weight, g_warr. assert (Pm := ids_perm groups). rewrite (vsum_perm _ _ _ Pm), map_length, (Permutation_length Pm). reflexivity.
Qed.
Lemma mean_nonneg : forall labels w, (forall g, In g labels -> 0 <= w g) -> 0 <= mean_group_weight labels w.
Proof.
  intros labels w H. unfold mean_group_weight. assert (A : 0 <= vsum (map w (distinct labels))). { assert (F : forall g, In g (distinct labels) -> 0 <= w g) by (intros g Hg; apply H; apply (nodup_In Z.eq_dec); auto). induction (distinct labels) as [|g l IH]; [unfold vsum; simpl; lra|]. cbn [map]. rewrite vsum_cons. assert (0 <= w g) by (apply F; left; auto). assert (0 <= vsum (map w l)) by (apply IH; intros; apply F; right; auto). lra. }
  destruct (length (distinct labels)) as [|k]; [unfold Rdiv; cbn; rewrite Rinv_0; lra|]. apply Rmult_le_pos; auto. left. apply Rinv_0_lt_compat. apply lt_0_INR. lia.
Qed.
Lemma active_true : forall w s, g_active w s = true <-> norm s <> 0 /\ 0 < w.
Proof.
  intros w s. unfold g_active. rewrite andb_true_iff, negb_true_iff, is0_false, gtb_true. split; intros (A & B); split; auto.
  - intros E. apply A. rewrite E. unfold Rdiv. ring.
  - intros E. apply A. apply Rmult_integral in E. destruct E as [E|E]; auto. exfalso. assert (0 < / w) by (apply Rinv_0_lt_compat; auto). lra.
Qed.
Lemma active_false : forall w s, 0 <= w -> g_active w s = false -> w = 0 \/ (0 < w /\ norm s = 0).
Proof. intros w s Hw H. destruct (Req_dec w 0) as [|N]; auto. right. split; [lra|]. destruct (Req_dec (norm s) 0) as [|M]; auto. exfalso. assert (g_active w s = true) by (apply active_true; split; auto; lra). congruence. Qed.
Lemma scale_forms : forall (s : vec) lam w m, map (fun a => a * lam * w / m) s = map (fun x => lam * w * x / m) s.
Proof. intros. apply map_ext. intros. unfold Rdiv. ring. Qed.
(** a group that passes cannot be improved by much *)
Lemma group_sound : forall groups weights grad s lam tol g v, length grad = length groups -> length s = length groups -> length v = length groups -> 0 < lam -> 0 <= tol -> 0 <= group_weight weights groups g -> In g groups ->
  g_active_fails groups weights grad s lam tol g = false -> g_inactive_term groups weights grad s lam g <= 1 + tol ->
  let w := group_weight weights groups in
  lam * (w g * norm (block groups g s)) <= lam * (w g * norm (block groups g v)) + dot (block groups g grad) (vsub (block groups g v) (block groups g s)) +
    tol * (group_slack groups w lam (mean_group_weight groups w) s g * norm (vsub (block groups g v) (block groups g s))).
Proof.
  intros groups weights grad s lam tol g v Lg Ls Lv Hl Ht Hw Hg A B w. unfold g_active_fails in A. unfold g_inactive_term in B. change (weight_of weights groups g) with (w g) in *. rewrite !zpick_block in *. fold (w g) in Hw. rewrite mean_warr in A. fold w in A.
  set (sg := block groups g s) in *. set (gg := block groups g grad) in *. set (vg := block groups g v). assert (L1 : length gg = length sg) by (apply block_length; congruence). assert (L2 : length vg = length sg) by (apply block_length; congruence).
  assert (Hc : 0 <= lam * w g) by (apply Rmult_le_pos; lra). unfold group_slack. destruct (g_active (w g) sg) eqn:Ac.
  - apply active_true in Ac as (Ns & Pw). apply gtb_false in A. rewrite scale_forms in A. destruct (Req_EM_T (w g) 0) as [|_]; [lra|]. fold sg. destruct (Req_EM_T (norm sg) 0) as [|_]; [contradiction|].
    assert (K := group_sound_active (lam * w g) gg sg vg tol L1 L2 Hc Ns A). lra.
  - apply active_false in Ac; auto. destruct Ac as [Z|(Pw & Ns)].
    + rewrite Z in *. replace (is0 0) with true in A by (symmetry; apply is0_true; auto). apply gtb_false in A. destruct (Req_EM_T 0 0) as [_|]; [|lra]. assert (K := group_sound_free gg sg vg _ L1 L2 A). lra.
    + replace (is0 (w g)) with false in B by (symmetry; apply is0_false; lra). destruct (Req_EM_T (w g) 0) as [|_]; [lra|]. fold sg. destruct (Req_EM_T (norm sg) 0) as [_|]; [|contradiction].
      assert (Pc : 0 < lam * w g) by (apply Rmult_lt_0_compat; auto). assert (N : norm gg <= lam * w g + tol * (lam * w g)). { apply (Rmult_le_compat_r (lam * w g)) in B; [|lra]. unfold Rdiv in B. rewrite Rmult_assoc, Rinv_l in B by lra. lra. }
      assert (K := group_sound_bound (lam * w g) gg sg vg _ L1 L2 Hc Ns N). lra.
Qed.
Lemma vsub_block : forall labels g x y, length x = length labels -> length y = length labels -> block labels g (vsub x y) = vsub (block labels g x) (block labels g y).
Proof. intros. unfold block, vsub. apply pick_vzip; auto. Qed.
Lemma vadd_block : forall labels g x y, length x = length labels -> length y = length labels -> block labels g (vadd x y) = vadd (block labels g x) (block labels g y).
Proof. intros. unfold block, vadd. apply pick_vzip; auto. Qed.
Lemma scal_block : forall labels g t x, block labels g (vscal t x) = vscal t (block labels g x).
Proof. intros. apply block_map. Qed.
Theorem gkkt_sound : forall labels f given g s lam tol, let w := group_weight given labels in convex_on (length labels) f -> is_gradient (length labels) f s g -> length s = length labels -> (forall h, In h labels -> 0 <= w h) -> 0 < lam -> 0 <= tol ->
  passes (g_check labels given g s lam tol) -> forall v, length v = length labels ->
  group_objective labels f w lam s <= group_objective labels f w lam v + tol * vsum (map (fun h => group_slack labels w lam (mean_group_weight labels w) s h * norm (block labels h (vsub v s))) (distinct labels)).
Proof.
  intros labels f given g s lam tol w C G Ls Hw Hl Ht Pa v Lv. assert (T := convex_tangent (length labels) f s g v C G Ls Lv). destruct G as (Lg & _). assert (Lvs : length (vsub v s) = length labels) by (unfold vsub; apply vzip_length2; auto).
  rewrite (dot_blocks labels) in T by auto. unfold group_objective, group_penalty.
  assert (K : lam * vsum (map (fun h => w h * norm (block labels h s)) (distinct labels)) <= lam * vsum (map (fun h => w h * norm (block labels h v)) (distinct labels)) + vsum (map (fun h => dot (block labels h g) (block labels h (vsub v s))) (distinct labels)) +
     tol * vsum (map (fun h => group_slack labels w lam (mean_group_weight labels w) s h * norm (block labels h (vsub v s))) (distinct labels))).
  { rewrite <- !vsum_map_scal, <- !vsum_map_add. apply vsum_map_le. intros h Hh. apply -> (nodup_In Z.eq_dec) in Hh. rewrite g_passes_iff in Pa. destruct (Pa h Hh) as (A & B). rewrite vsub_block by auto. apply group_sound; auto. }
  lra.
Qed.

(** ** minimizers pass *)
Lemma norm_segment : forall a d t, length d = length a -> 0 <= t <= 1 -> norm (vadd a (vscal t d)) <= (1 - t) * norm a + t * norm (vadd a d).
Proof.
  intros a d t L Ht. replace (vadd a (vscal t d)) with (vadd (vscal (1 - t) a) (vscal t (vadd a d))).
  - assert (K := norm_triangle (vscal (1 - t) a) (vscal t (vadd a d)) ltac:(unfold vscal, vadd; rewrite !map_length, (vzip_length2 _ _ _ (length a)); auto)). rewrite !norm_scal, !Rabs_right in K by lra. exact K.
  - clear Ht. revert d L. induction a as [|x a IH]; intros [|y d] L; try discriminate; auto. unfold vadd, vscal in *. cbn [map vzip]. rewrite IH by (cbn in L; congruence). f_equal. ring.
Qed.
Lemma penalty_segment : forall labels w s d t, length s = length labels -> length d = length labels -> (forall g, In g labels -> 0 <= w g) -> 0 <= t <= 1 -> group_penalty labels w (vadd s (vscal t d)) <= (1 - t) * group_penalty labels w s + t * group_penalty labels w (vadd s d).
Proof.
  intros labels w s d t Ls Ld Hw Ht. unfold group_penalty. rewrite <- !vsum_map_scal, <- vsum_map_add. apply vsum_map_le. intros g Hg. apply -> (nodup_In Z.eq_dec) in Hg. assert (Ldt : length (vscal t d) = length labels) by (unfold vscal; rewrite map_length; auto). rewrite !vadd_block, scal_block by auto.
  assert (K := norm_segment (block labels g s) (block labels g d) t ltac:(apply block_length; congruence) Ht). specialize (Hw g Hg). apply Rle_trans with (w g * ((1 - t) * norm (block labels g s) + t * norm (vadd (block labels g s) (block labels g d)))); [apply Rmult_le_compat_l; auto|]. right. ring.
Qed.
Lemma one_changes : forall (F G : Z -> R) labels g, In g labels -> (forall h, h <> g -> F h = G h) -> vsum (map F (distinct labels)) = vsum (map G (distinct labels)) + (F g - G g).
Proof.
  intros F G labels g Hg H. replace (vsum (map F (distinct labels))) with (vsum (map (fun h => G h + (if Z.eqb h g then F g - G g else 0)) (distinct labels))).
  - rewrite vsum_map_add. f_equal. apply vsum_map_one; [apply NoDup_nodup|apply (nodup_In Z.eq_dec); auto].
  - apply vsum_map_ext. intros h _. destruct (Z.eqb_spec h g) as [->|N]; [ring|rewrite H by auto; ring].
Qed.
(** first order condition of a group for which every change within the group is allowed *)
Lemma group_first : forall labels f w grad s lam g, is_gradient (length labels) f s grad -> length s = length labels -> 0 <= lam -> (forall h, In h labels -> 0 <= w h) -> In g labels ->
  (forall d, length d = length labels -> (forall h, h <> g -> block labels h d = zeros (length (block labels h d))) -> group_objective labels f w lam s <= group_objective labels f w lam (vadd s d)) ->
  gstat (lam * w g) (block labels g grad) (block labels g s).
Proof.
  intros labels f w grad s lam g G Ls Hl Hw Hg M d Ld. set (D := unblock labels g d). assert (LD : length D = length labels) by apply unblock_length. assert (Lz : length (zeros (length labels)) = length labels) by apply repeat_length.
  assert (BD : block labels g D = d) by (apply block_unblock; rewrite Ld; apply block_length; congruence). assert (BO : forall h, h <> g -> block labels h D = zeros (length (block labels h D))). { intros h N. unfold D. rewrite block_unblock_other by auto. rewrite zeros_length. reflexivity. }
  assert (BA : forall h, h <> g -> block labels h (vadd s D) = block labels h s). { intros h N. rewrite vadd_block by auto. rewrite BO by auto. apply vadd_zeros_r. apply block_length; congruence. }
  assert (F := P_problem.first_order (length labels) f (fun v => lam * group_penalty labels w v) s grad D G LD).
  assert (K : 0 <= dot grad D + lam * group_penalty labels w (vadd s D) - lam * group_penalty labels w s).
  { apply F; auto.
    - intros t Ht. assert (K := penalty_segment labels w s D t Ls LD Hw Ht). apply (Rmult_le_compat_l lam) in K; auto. lra.
    - intros t Ht. apply (M (vscal t D)); [unfold vscal; rewrite map_length; auto|]. intros h N. rewrite scal_block, BO by auto. unfold vscal, zeros. rewrite map_length, repeat_length. clear. induction (length (block labels h D)) as [|k IH]; auto. cbn [repeat map]. rewrite IH. f_equal. ring. }
  unfold group_penalty in K. rewrite (one_changes (fun h => w h * norm (block labels h (vadd s D))) (fun h => w h * norm (block labels h s)) labels g Hg) in K by (intros h N; rewrite BA by auto; reflexivity).
  destruct G as (Lg & _). rewrite (dot_blocks labels) in K by auto. rewrite (one_changes (fun h => dot (block labels h grad) (block labels h D)) (fun _ => 0) labels g Hg) in K by (intros h N; rewrite BO by auto; apply dot_zeros_r).
  replace (vsum (map (fun _ : Z => 0) (distinct labels))) with 0 in K by (clear; induction (distinct labels) as [|x l IH]; [reflexivity|]; cbn [map]; rewrite vsum_cons, <- IH; ring). rewrite vadd_block, BD in K by auto. lra.
Qed.
(** a stationary group passes; (labels', g', s') is a restriction of the problem that keeps the group *)
Lemma gstat_passes : forall labels given grad s lam tol g, length grad = length labels -> length s = length labels -> 0 < lam -> 0 <= tol -> (forall h, In h labels -> 0 <= group_weight given labels h) -> In g labels -> gstat (lam * group_weight given labels g) (block labels g grad) (block labels g s) ->
  g_active_fails labels given grad s lam tol g = false /\ g_inactive_term labels given grad s lam g <= 1.
Proof.
  intros labels given grad s lam tol g Lg Ls Hl Ht Hw Hg St. unfold g_active_fails, g_inactive_term. change (weight_of given labels g) with (group_weight given labels g). set (w := group_weight given labels) in *. rewrite !zpick_block, mean_warr. fold w. set (sg := block labels g s) in *. set (gg := block labels g grad) in *.
  assert (L1 : length gg = length sg) by (apply block_length; congruence). assert (Hwg := Hw g Hg). assert (Hc : 0 <= lam * w g) by (apply Rmult_le_pos; lra). assert (Mn := mean_nonneg labels w Hw).
  destruct (g_active (w g) sg) eqn:Ac.
  - apply active_true in Ac as (Ns & Pw). split; [|lra]. apply gtb_false. rewrite scale_forms, (gstat_active _ _ _ L1 Hc Ns St). auto.
  - apply active_false in Ac; auto. assert (N := gstat_norm _ _ _ L1 Hc St). destruct Ac as [Z|(Pw & Ns)].
    + rewrite Z in *. replace (is0 0) with true by (symmetry; apply is0_true; auto). split; [|lra]. apply gtb_false. assert (0 <= tol * mean_group_weight labels w) by (apply Rmult_le_pos; auto). lra.
    + replace (is0 (w g)) with false by (symmetry; apply is0_false; lra). split; auto. assert (Pc : 0 < lam * w g) by (apply Rmult_lt_0_compat; auto). apply Rmult_le_reg_r with (lam * w g); auto. unfold Rdiv. rewrite Rmult_assoc, Rinv_l by lra. lra.
Qed.
Theorem gkkt_complete : forall labels f given g s lam tol, let w := group_weight given labels in is_gradient (length labels) f s g -> length s = length labels -> (forall h, In h labels -> 0 <= w h) -> 0 < lam -> 0 <= tol ->
  (forall v, length v = length labels -> group_objective labels f w lam s <= group_objective labels f w lam v) -> passes (g_check labels given g s lam tol).
Proof.
  intros labels f given g s lam tol w G Ls Hw Hl Ht M. apply g_passes_iff. intros h Hh. assert (St : gstat (lam * w h) (block labels h g) (block labels h s)). { apply (group_first labels f w g s lam h); auto; [lra|]. intros d Ld _. apply M. unfold vadd. apply vzip_length2; auto. }
  destruct G as (Lg & _). destruct (gstat_passes labels given g s lam tol h Lg Ls Hl Ht Hw Hh St) as (A & B). split; auto. lra.
Qed.
