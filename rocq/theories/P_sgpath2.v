(** Sparse group lasso paths: the optimality check at the null solution, the strong set, and where the check is wrong. *)
From Coq Require Import Reals List Lra Lia Arith Bool ZArith Permutation Sorted.
From Verif Require Import M_affine SpecAffine P_affine P_affine2 M_loss SpecLoss SpecSmooth P_smooth Vec Spec SpecConvex M_quad M_prox M_semi M_weighted P_quad P_calc P_sep P_feas M_problem P_problem M_cv SpecCv P_cv M_path SpecPath P_path P_path2 P_path3 P_path4
  SpecPart SpecGroup SpecWeighted SpecSgl M_mixed M_group M_sgl SpecGatom P_part P_mixed P_kinds P_group P_sgl2 P_sgl3 P_sgl5 P_sgl7 M_gpath SpecGpath P_gpath P_gpath3 P_sgpath.
Import ListNotations.
Local Open Scope R_scope.

Lemma forall_zeros : forall (v : vec), Forall (fun r => r = 0) v -> v = zeros (length v).
Proof. induction v as [|a v IH]; intros H; auto. unfold zeros in *. cbn [length repeat]. rewrite (Forall_inv H). f_equal. apply IH. exact (Forall_inv_tail H). Qed.
Lemma block_zeros : forall labels g n, exists k, block labels g (zeros n) = zeros k.
Proof. intros labels g n. exists (length (block labels g (zeros n))). apply forall_zeros. apply block_forall. apply Forall_forall. intros x Hx. apply repeat_spec in Hx. auto. Qed.
Lemma sparse_value : forall labels a w v, length a = length labels -> length v = length labels -> sparse_group labels (map Fin a) w v = Fin (sparse_penalty labels a w v).
Proof. intros labels a w v La Lv. rewrite sparse_group_split by auto. reflexivity. Qed.
Lemma sparse_mono : forall labels a w w' v, (forall g, In g labels -> w g <= w' g) -> sparse_penalty labels a w v <= sparse_penalty labels a w' v.
Proof. intros labels a w w' v H. unfold sparse_penalty. apply vsum_map_le. intros g Hg. apply -> (nodup_In Z.eq_dec) in Hg. specialize (H g Hg). assert (N := norm_nonneg (block labels g v)). assert (w g * norm (block labels g v) <= w' g * norm (block labels g v)) by (apply Rmult_le_compat_r; auto). lra. Qed.
Lemma sparse_nonneg : forall labels a w v, Forall (fun r => 0 <= r) a -> (forall g, In g labels -> 0 <= w g) -> 0 <= sparse_penalty labels a w v.
Proof.
  intros labels a w v Ha Hw. unfold sparse_penalty. replace 0 with (vsum (map (fun _ : Z => 0) (distinct labels))) by (generalize (distinct labels); induction l as [|c l IH]; auto; cbn [map]; rewrite vsum_cons, IH; ring). apply vsum_map_le. intros g Hg. apply -> (nodup_In Z.eq_dec) in Hg.
  apply (one_nonneg (block labels g a) (w g) _ (block labels g v) _ (block_forall _ labels g a Ha) (Hw g Hg) eq_refl (one_group_value _ _ _)).
Qed.
Lemma sparse_scal : forall labels a w v t, 0 <= t -> sparse_penalty labels a w (vscal t v) = t * sparse_penalty labels a w v.
Proof.
  intros labels a w v t Ht. unfold sparse_penalty. rewrite <- vsum_map_scal. apply vsum_map_ext. intros g _. unfold vscal. rewrite block_map. change (map (Rmult t) (block labels g v)) with (vscal t (block labels g v)). rewrite norm_scal, Rabs_pos_eq by auto.
  replace (vsum (vmul (block labels g a) (map Rabs (vscal t (block labels g v))))) with (t * vsum (vmul (block labels g a) (map Rabs (block labels g v)))); [ring|].
  generalize (block labels g a) (block labels g v). induction v0 as [|c l IH]; intros [|e m]; try (unfold vsum; cbn; ring). unfold vmul, vscal in *. cbn [map vzip]. rewrite !vsum_cons, Rabs_mult, (Rabs_pos_eq t), Rmult_plus_distr_l, IH by auto. ring.
Qed.
Lemma forall2_left : forall {A B} (P : A -> B -> Prop) l r, Forall2 P l r -> forall a, In a l -> exists b, In b r /\ P a b.
Proof. intros A B P l r F. induction F as [|x y l r H F IH]; intros a Ha; [destruct Ha|]. destruct Ha as [->|Ha]; [exists y; split; [left|]; auto|]. destruct (IH a Ha) as (b & Hb & Pb). exists b. split; [right|]; auto. Qed.
Lemma forall2_right : forall {A B} (P : A -> B -> Prop) l r, Forall2 P l r -> forall b, In b r -> exists a, In a l /\ P a b.
Proof. intros A B P l r F. induction F as [|x y l r H F IH]; intros b Hb; [destruct Hb|]. destruct Hb as [->|Hb]; [exists x; split; [left|]; auto|]. destruct (IH b Hb) as (a & Ha & Pa). exists a. split; [right|]; auto. Qed.
(** ** one group of the check at zero *)
Section Null.
Variables (labels : list Z) (lw : vec) (given : Z -> option R) (grad : vec) (lam tol : R) (fuel : nat).
Hypothesis (Ll : length lw = length labels) (Lg : length grad = length labels) (Hl : Forall (fun r => 0 <= r) lw) (Hw : forall h, In h labels -> 0 <= group_weight given labels h).
Hypothesis (Pos : forall h, In h labels -> 0 < vsum (block labels h lw) + group_weight given labels h) (Hf : (20 < fuel)%nat) (Hlam : 0 < lam).
Local Notation w := (group_weight given labels) (only parsing).
Lemma null_one : forall g, In g labels -> sg_one labels lw given grad (zeros (length labels)) lam tol fuel g =
  rmap (fun r => (false, match fst r with Fin a => Fin (a / lam) | PInf => PInf end)) (gauge_function_dual_strong (vopp (block labels g grad)) (block labels g lw) (w g) fuel).
Proof.
  intros g Hg. unfold sg_one. rewrite !zpick_block. destruct (block_zeros labels g (length labels)) as (k & ->). rewrite !norm_zeros.
  assert (E : vmul (zeros k) (block labels g lw) = zeros (Nat.min k (length (block labels g lw)))). { generalize (block labels g lw). revert k. induction k as [|k IH]; intros [|c m]; auto. unfold vmul, zeros in *. cbn [repeat vzip length Nat.min]. rewrite IH. f_equal. ring. }
  rewrite E, vabs_zeros, vsum_zeros'. replace (gtb (0 * weight_of given labels g + 0) (/ 10 ^ 6 * 0)) with false by (symmetry; apply gtb_false; lra).
  replace (gtb (vsum (block labels g lw) + weight_of given labels g) 0) with true by (symmetry; apply gtb_true; exact (Pos g Hg)). reflexivity.
Qed.
Lemma null_dual : forall g, In g labels -> exists D, is_dual_norm (length (block labels g grad)) (one_group (block labels g lw) (w g + / 10 ^ 5)) (vopp (block labels g grad)) D.
Proof.
  intros g Hg. assert (L : length (vopp (block labels g grad)) = length (block labels g grad)) by apply map_length. rewrite <- L. apply one_exists; [rewrite L; apply block_length; congruence|apply block_forall; auto|specialize (Hw g Hg); lra].
Qed.
Lemma small_pow : (1 / 2) ^ 50 < 1. Proof. lra. Qed.
Lemma null_term : forall g D, In g labels -> is_dual_norm (length (block labels g grad)) (one_group (block labels g lw) (w g + / 10 ^ 5)) (vopp (block labels g grad)) D ->
  exists e, sg_one labels lw given grad (zeros (length labels)) lam tol fuel g = Ok (false, e) /\
    (((exists a, e = Fin a /\ a <= 1 + tol) -> 0 <= tol -> (1 / 2) ^ 50 <= lam -> D <= lam * (1 + tol) * (1 + 2 / 10 ^ 6)) /\
     (D <= lam -> 2 / 10 ^ 6 <= tol -> lam <= 2 ^ 50 -> exists a, e = Fin a /\ a <= 1 + tol)).
Proof.
  intros g D Hg HD. rewrite null_one by auto. set (u := vopp (block labels g grad)) in *. assert (Lu : length u = length (block labels g grad)) by apply map_length. rewrite <- Lu in HD.
  destruct (strong_accurate u (block labels g lw) (w g) D fuel) as (e & o & E & H); auto; [rewrite Lu; apply block_length; congruence|apply block_forall; auto|]. rewrite E. cbn [rmap fst].
  assert (D0 : 0 <= D) by apply HD. eexists. split; [reflexivity|]. destruct e as [m|].
  - destruct H as [(-> & HD0 & _)|((H1 & H2) & H3 & _)].
    + replace (0 / lam) with 0 by (field; lra). split; [intros _ Ht Hb|intros _ Ht _; exists 0; split; [auto|lra]]. apply Rle_trans with lam; [lra|]. rewrite Rmult_assoc. rewrite <- (Rmult_1_r lam) at 1. apply Rmult_le_compat_l; [lra|]. nra.
    + assert (B : - (/ 10 ^ 6 * (1 + / 10 ^ 6) * D) <= m - D <= / 10 ^ 6 * (1 + / 10 ^ 6) * D). { revert H3. unfold Rabs. destruct (Rcase_abs (m - D)); lra. } clear H3. destruct B as (B1 & B2). split.
      * intros (a & Ea & Ha) Ht _. injection Ea as Ea. subst a. assert (M : m <= lam * (1 + tol)). { replace m with (lam * (m / lam)) by (field; lra). apply Rmult_le_compat_l; lra. }
        apply Rle_trans with (m * (1 + 2 / 10 ^ 6)); [|apply Rmult_le_compat_r; lra]. nra.
      * intros Hd Ht _. exists (m / lam). split; auto. apply Rmult_le_reg_r with lam; auto. replace (m / lam * lam) with m by (field; lra). assert (m <= D * (1 + 2 / 10 ^ 6)) by nra. nra.
  - destruct H as (H & _). split; [intros (a & Ea & _); discriminate|]. intros Hd _ Hb. lra.
Qed.
Lemma null_all : exists rs, rall (sg_one labels lw given grad (zeros (length labels)) lam tol fuel) (g_ids labels) = Ok rs.
Proof. apply rall_ok. intros g Hg. apply -> sorted_unique_in in Hg. destruct (null_dual g Hg) as (D & HD). destruct (null_term g D Hg HD) as (e & E & _). eexists. exact E. Qed.
Lemma null_passes : tol < 2 -> exists r, sg_check labels lw given grad (zeros (length labels)) lam tol fuel = Ok r /\
  (passes r <-> forall g, In g labels -> exists a, sg_one labels lw given grad (zeros (length labels)) lam tol fuel g = Ok (false, Fin a) /\ a <= 1 + tol).
Proof.
  intros Ht. destruct null_all as (rs & E). destruct (sg_passes_iff _ _ _ _ _ _ _ _ _ Ht E) as (r & Er & Hr). exists r. split; auto. rewrite Hr. clear Hr Er. apply rall_spec in E. split.
  - intros H g Hg. apply sorted_unique_in in Hg. destruct (forall2_left _ _ _ E g Hg) as (q & Hq & Eq). destruct (H q Hq) as (A & a & B & C). destruct q as (f & e). cbn [fst snd] in *. subst. exists a. auto.
  - intros H q Hq. destruct (forall2_right _ _ _ E q Hq) as (g & Hg & Eq). apply -> sorted_unique_in in Hg. destruct (H g Hg) as (a & Ea & Ha). rewrite Eq in Ea. apply Ok_inj in Ea. subst q. cbn [fst snd]. eauto.
Qed.
Theorem sg_null_sound : forall f, is_gradient (length labels) f (zeros (length labels)) grad -> convex_on (length labels) f -> 0 <= tol < 2 -> (1 / 2) ^ 50 <= lam ->
  forall r v, sg_check labels lw given grad (zeros (length labels)) lam tol fuel = Ok r -> passes r -> length v = length labels ->
  f (zeros (length labels)) <= f v + lam * (1 + tol) * (1 + 2 / 10 ^ 6) * sparse_penalty labels lw (fun g => w g + / 10 ^ 5) v.
Proof.
  intros f G C (Ht & Ht2) Hb r v Er Pr Lv. assert (Lz : length (zeros (length labels)) = length labels) by apply zeros_length. 
  assert (T := convex_tangent _ _ _ _ v C G Lz Lv). destruct (null_passes Ht2) as (r' & Er' & Hr). rewrite Er in Er'. apply Ok_inj in Er'. subst r'. pose proof (proj1 Hr Pr) as H.
  set (b := lam * (1 + tol) * (1 + 2 / 10 ^ 6)). assert (B : dual_ball (length labels) (sparse_group labels (map Fin lw) (fun g => w g + / 10 ^ 5)) b (vopp grad)).
  { apply ball_split; auto; [unfold vopp; rewrite map_length; auto|]. intros g Hg. unfold vopp. rewrite block_map. fold (vopp (block labels g grad)). unfold vopp at 1. rewrite map_length. destruct (null_dual g Hg) as (D & HD). destruct (null_term g D Hg HD) as (e & E & K & _). destruct (H g Hg) as (a & Ea & Ha). rewrite E in Ea. apply Ok_inj in Ea. injection Ea as Ea. subst e.
    apply ball_mono with D; [|apply K; auto; eauto|apply HD]. intros z s Lz' Ez. eapply one_nonneg; [apply block_forall; exact Hl| |exact Lz'|exact Ez]. specialize (Hw g Hg). lra. }
  specialize (B v _ Lv (sparse_value labels lw _ v Ll Lv)). rewrite dot_opp_l in B. replace (vsub v (zeros (length labels))) with v in T; [lra|]. symmetry. rewrite <- Lv. clear. induction v as [|a v IH]; auto. unfold vsub, zeros in *. cbn [length repeat vzip]. rewrite IH. f_equal. ring.
Qed.
Theorem sg_null_complete : forall f, is_gradient (length labels) f (zeros (length labels)) grad -> 2 / 10 ^ 6 <= tol < 2 -> lam <= 2 ^ 50 ->
  (forall v, length v = length labels -> f (zeros (length labels)) <= f v + lam * sparse_penalty labels lw w v) ->
  exists r, sg_check labels lw given grad (zeros (length labels)) lam tol fuel = Ok r /\ passes r.
Proof.
  intros f G (Ht & Ht2) Hb M. assert (Lz : length (zeros (length labels)) = length labels) by apply zeros_length. destruct (null_passes Ht2) as (r & Er & Hr). exists r. split; auto. apply Hr. clear r Er Hr.
  assert (B : dual_ball (length labels) (sparse_group labels (map Fin lw) w) lam (vopp grad)).
  { intros d s Ld Es. rewrite sparse_value in Es by auto. injection Es as <-. rewrite dot_opp_l.
    assert (Z : forall x, length x = length labels -> vadd (zeros (length labels)) x = x) by (intros x Lx; rewrite <- Lx; clear; induction x as [|a x IH]; auto; unfold vadd, zeros in *; cbn [length repeat vzip]; rewrite IH; f_equal; ring).
    assert (Lt : forall t, length (vscal t d) = length labels) by (intros t; unfold vscal; rewrite map_length; auto).
    assert (P0 : sparse_penalty labels lw w (zeros (length labels)) = 0). { replace (zeros (length labels)) with (vscal 0 d); [rewrite sparse_scal by lra; ring|]. rewrite <- Ld. clear. unfold vscal, zeros. induction d as [|a d IH]; auto. cbn [map length repeat]. rewrite IH. f_equal. ring. }
    assert (F := first_order (length labels) f (fun x => lam * sparse_penalty labels lw w x) (zeros (length labels)) grad d G Ld). cbv beta in F. rewrite !Z in F by auto. rewrite P0 in F. enough (0 <= dot grad d + lam * sparse_penalty labels lw w d - lam * 0) by lra. apply F; auto.
    - intros t Ht0. rewrite Z, sparse_scal by (auto; lra). lra.
    - intros t Ht0. rewrite !Z by auto. specialize (M (vscal t d) (Lt t)). lra. }
  intros g Hg. destruct (null_dual g Hg) as (D & HD). destruct (null_term g D Hg HD) as (e & E & _ & K). destruct K as (a & -> & Ha); eauto.
  apply HD; [lra|]. assert (Bg := proj1 (ball_split labels lw w lam (vopp grad) Ll ltac:(unfold vopp; rewrite map_length; auto)) B g Hg). unfold vopp in Bg. rewrite block_map in Bg. fold (vopp (block labels g grad)) in Bg. unfold vopp at 1 in Bg. rewrite map_length in Bg.
  intros z s Lz' Ez. rewrite one_group_value in Ez. injection Ez as <-. specialize (Bg z _ Lz' (one_group_value _ _ _)). apply Rle_trans with (1 := Bg). apply Rmult_le_compat_l; [lra|]. unfold one_value. assert (N := norm_nonneg z). nra.
Qed.
End Null.
