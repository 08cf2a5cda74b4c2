(** What the optimality check of sparse group lasso paths guarantees off zero: all groups. *)
From Coq Require Import Reals List Lra Lia Psatz Bool ZArith.
From Verif Require Import Vec Spec SpecConvex M_quad M_prox M_semi SpecPart SpecGroup M_mixed M_weighted M_group SpecSgl M_sgl P_quad P_prox P_calc P_part P_weighted P_gauge P_group P_group2 P_sgl P_search P_sgl2 P_sgl3 P_sgl5
  M_loss SpecLoss SpecSmooth P_smooth P_fista M_path SpecPath M_gpath SpecGpath SpecSgpath P_path P_gpath P_gpath3 P_sgpath P_sgpath2 P_sgpath4.
Import ListNotations.
Local Open Scope R_scope.

Lemma group_pen_abs : forall a w x, Forall (fun r => 0 <= r) a -> norm x * w + vsum (vabs (vmul x a)) = group_pen a w x.
Proof.
  intros a w x Ha. unfold group_pen. enough (vsum (vabs (vmul x a)) = vsum (vmul a (map Rabs x))) by lra. revert x. induction a as [|c a IH]; intros [|e x]; auto. unfold vmul, vabs in *. cbn [map vzip]. rewrite !vsum_cons. rewrite IH by (apply (Forall_inv_tail Ha)).
  f_equal. rewrite Rabs_mult, (Rabs_right c); [ring|]. apply Rle_ge. apply (Forall_inv Ha).
Qed.
Lemma group_pen_sub : forall a w x y, length a = length x -> length y = length x -> Forall (fun r => 0 <= r) a -> 0 <= w -> group_pen a w (vsub x y) <= group_pen a w x + group_pen a w y.
Proof.
  intros a w x y La Ly Ha Hw. unfold group_pen. assert (N : norm (vsub x y) <= norm x + norm y). { replace (vsub x y) with (vadd x (vopp y)). 2: { clear -Ly. revert y Ly. induction x as [|b x IH]; intros [|e y] Ly; try discriminate; auto. unfold vadd, vsub, vopp in *. cbn [map vzip]. rewrite IH by (simpl in Ly; congruence). f_equal. }
    eapply Rle_trans; [apply norm_triangle; unfold vopp; rewrite map_length; auto|]. replace (norm (vopp y)) with (norm y); [lra|]. unfold vopp. rewrite <- (abs_norm y), <- (abs_norm (map Ropp y)). f_equal. rewrite map_map. apply map_ext. intros. symmetry. apply Rabs_Ropp. }
  assert (w * norm (vsub x y) <= w * (norm x + norm y)) by (apply Rmult_le_compat_l; auto).
  assert (vsum (vmul a (map Rabs (vsub x y))) <= vsum (vmul a (map Rabs x)) + vsum (vmul a (map Rabs y))); [|lra].
  clear - La Ly Ha. revert x y La Ly. induction a as [|c a IH]; intros [|b x] [|e y] La Ly; try discriminate; [unfold vsum; simpl; lra|]. unfold vmul, vsub in *. cbn [map vzip]. rewrite !vsum_cons.
  specialize (IH (Forall_inv_tail Ha) x y ltac:(simpl in La; congruence) ltac:(simpl in Ly; congruence)). assert (T : Rabs (b - e) <= Rabs b + Rabs e) by (unfold Rminus; eapply Rle_trans; [apply Rabs_triang|rewrite Rabs_Ropp; lra]).
  assert (c * Rabs (b - e) <= c * (Rabs b + Rabs e)) by (apply Rmult_le_compat_l; [apply (Forall_inv Ha)|auto]). lra.
Qed.
Lemma gauge_bound : forall point lw w lam tol fuel m o, (20 < fuel)%nat -> length lw = length point -> Forall (fun r => 0 <= r) lw -> 0 <= w -> 0 < lam -> 0 <= tol -> (1 / 2) ^ 50 <= lam ->
  gauge_function_dual_strong point lw w fuel = Ok (Fin m, o) -> m / lam <= 1 + tol -> forall y, length y = length point -> dot point y <= lam * (1 + tol) * (1 + 2 / 10 ^ 6) * group_pen lw (w + / 10 ^ 5) y.
Proof.
  intros u a w lam tol fuel m o Hf La Ha Hw Hl Ht Hb E Hm y Ly. destruct (one_exists a (w + / 10 ^ 5) u La Ha ltac:(lra)) as (D & HD). destruct (strong_accurate u a w D fuel La Ha Hw Hf HD) as (e & o' & E' & H). rewrite E in E'. apply Ok_inj in E'. injection E' as <- <-.
  assert (D0 : 0 <= D) by apply HD. assert (B : D <= lam * (1 + tol) * (1 + 2 / 10 ^ 6)).
  { destruct H as [(-> & HD0 & _)|((H1 & H2) & H3 & _)].
    - apply Rle_trans with lam; [lra|]. rewrite Rmult_assoc. rewrite <- (Rmult_1_r lam) at 1. apply Rmult_le_compat_l; [lra|]. nra.
    - assert (B : - (/ 10 ^ 6 * (1 + / 10 ^ 6) * D) <= m - D) by (revert H3; unfold Rabs; destruct (Rcase_abs (m - D)); lra). assert (M : m <= lam * (1 + tol)). { replace m with (lam * (m / lam)) by (field; lra). apply Rmult_le_compat_l; lra. }
      apply Rle_trans with (m * (1 + 2 / 10 ^ 6)); [|apply Rmult_le_compat_r; lra]. nra. }
  assert (K := proj1 (proj2 HD) y _ Ly (one_group_value a (w + / 10 ^ 5) y)). rewrite group_pen_value. apply Rle_trans with (1 := K). apply Rmult_le_compat_r; auto. apply (one_nonneg a (w + / 10 ^ 5) (length u) y); auto; [lra|apply one_group_value].
Qed.
Theorem inactive_sound : forall point lw w s lam tol fuel y m o, (20 < fuel)%nat -> length lw = length point -> length s = length point -> length y = length point ->
  Forall (fun r => 0 <= r) lw -> 0 <= w -> 0 < lam -> 0 <= tol -> (1 / 2) ^ 50 <= lam -> gauge_function_dual_strong point lw w fuel = Ok (Fin m, o) -> m / lam <= 1 + tol ->
  dot point (vsub y s) <= lam * (group_pen lw w y - group_pen lw w s) + inactive_error lw w lam tol s (vsub y s).
Proof.
  intros u a w s lam tol fuel y m o Hf La Ls Ly Ha Hw Hl Ht Hb E Hm. assert (K := gauge_bound u a w lam tol fuel m o Hf La Ha Hw Hl Ht Hb E Hm (vsub y s) ltac:(vlen)).
  assert (S := group_pen_sub a w y s ltac:(congruence) ltac:(congruence) Ha Hw). unfold inactive_error. assert (lam * group_pen a w (vsub y s) <= lam * (group_pen a w y + group_pen a w s)) by (apply Rmult_le_compat_l; lra). lra.
Qed.
Lemma blocks_sound : forall labels f lw w lam grad s v (err : Z -> R), convex_on (length labels) f -> is_gradient (length labels) f s grad -> length s = length labels -> length v = length labels -> 
  (forall g, In g labels -> dot (vopp (block labels g grad)) (vsub (block labels g v) (block labels g s)) <= lam * (group_pen (block labels g lw) (w g) (block labels g v) - group_pen (block labels g lw) (w g) (block labels g s)) + err g) ->
  f s + lam * sparse_penalty labels lw w s <= f v + lam * sparse_penalty labels lw w v + vsum (map err (distinct labels)).
Proof.
  intros labels f lw w lam grad s v err C G Ls Lv H. assert (T := convex_tangent (length labels) f s grad v C G Ls Lv). destruct G as (Lg & _). assert (Lvs : length (vsub v s) = length labels) by vlen.
  rewrite (dot_blocks labels) in T by auto. unfold sparse_penalty. enough (K : lam * vsum (map (fun g => group_pen (block labels g lw) (w g) (block labels g s)) (distinct labels)) <= lam * vsum (map (fun g => group_pen (block labels g lw) (w g) (block labels g v)) (distinct labels)) + vsum (map (fun h => dot (block labels h grad) (block labels h (vsub v s))) (distinct labels)) + vsum (map err (distinct labels))) by (unfold group_pen in K; lra).
  rewrite <- !vsum_map_scal, <- !vsum_map_add. apply vsum_map_le. intros h Hh. apply -> (nodup_In Z.eq_dec) in Hh. specialize (H h Hh). rewrite dot_opp_l in H. rewrite vsub_block by auto. lra.
Qed.
Theorem sg_sound : forall labels lw given grad s lam tol fuel c f r v, let w := group_weight given labels in length lw = length labels -> length s = length labels -> length v = length labels -> (20 < fuel)%nat ->
  0 < c -> Forall (fun a => c <= a) lw -> (forall h, In h labels -> 0 < w h /\ norm (block labels h lw) <= 10 ^ 5 * w h) -> (1 / 2) ^ 50 <= lam -> 0 <= tol < 1 ->
  convex_on (length labels) f -> is_gradient (length labels) f s grad -> sg_check labels lw given grad s lam tol fuel = Ok r -> passes r ->
  f s + lam * sparse_penalty labels lw w s <= f v + lam * sparse_penalty labels lw w v + vsum (map (sparse_error labels lw w c lam tol s v) (distinct labels)).
Proof.
  intros labels lw given grad s lam tol fuel c f r v w Ll Ls Lv Hf Hc Hlw Hw Hlam Ht C G Er Pr. assert (P50 : 0 < (1 / 2) ^ 50) by (apply pow_lt; lra). assert (Hlw0 : Forall (fun a => 0 <= a) lw) by (apply Forall_impl with (2 := Hlw); intros; lra).
  apply (blocks_sound labels f lw w lam grad s v); auto. assert (Lg : length grad = length labels) by apply G. intros g Hg. destruct (rall (sg_one labels lw given grad s lam tol fuel) (g_ids labels)) as [rs|] eqn:ER; [|unfold sg_check in Er; rewrite ER in Er; discriminate].
  assert (T2 : tol < 2) by lra. destruct (sg_passes_iff _ _ _ _ _ _ _ _ _ T2 ER) as (r' & Er' & Hr). rewrite Er in Er'. apply Ok_inj in Er'. subst r'. pose proof (proj1 Hr Pr) as Pq. apply rall_spec in ER. 
  destruct (forall2_left _ _ _ ER g ltac:(apply sorted_unique_in; auto)) as (q & Hq & Eq). destruct (Pq q Hq) as (Q1 & a & Q2 & Qa). destruct q as (b & e). cbn [fst snd] in Q1, Q2. subst b e.
  destruct (Hw g Hg) as (W0 & WA). unfold sg_one in Eq. rewrite !zpick_block in Eq. change (weight_of given labels g) with (w g) in Eq.
  assert (Lb : forall x, length x = length labels -> length (block labels g x) = length (vopp (block labels g grad))) by (intros x Lx; unfold vopp; rewrite map_length; apply block_length; auto).
  rewrite group_pen_abs in Eq by (apply block_forall; auto). unfold sparse_error. rewrite vsub_block by auto. destruct (Rlt_dec _ _) as [A|A].
  - replace (gtb (group_pen (block labels g lw) (w g) (block labels g s)) (/ 10 ^ 6 * norm s)) with true in Eq by (symmetry; apply gtb_true; auto).
    destruct (sg_active_check _ _ _ _ _ _ _) as [b|] eqn:EA; [|discriminate]. cbn [rmap] in Eq. apply Ok_inj in Eq. injection Eq as -> _.
    apply (active_sound _ _ _ _ _ _ fuel); auto; [apply block_forall; auto|lra|]. intros Z. assert (N := norm_nonneg s). unfold norm in Z. apply sqrt_eq_0 in Z; [|apply sqn_nonneg]. apply sqn_eq_zero in Z. rewrite Z in A. unfold group_pen in A. rewrite norm_zeros, Rmult_0_r in A.
    replace (vsum (vmul (block labels g lw) (map Rabs (zeros (length (block labels g s)))))) with 0 in A; [lra|]. change (map Rabs (zeros (length (block labels g s)))) with (vabs (zeros (length (block labels g s)))). rewrite vabs_zeros, vmul_zeros_r, vsum_zeros'. auto.
  - replace (gtb (group_pen (block labels g lw) (w g) (block labels g s)) (/ 10 ^ 6 * norm s)) with false in Eq by (symmetry; apply gtb_false; lra). destruct (gtb _ 0); [|discriminate].
    destruct (gauge_function_dual_strong _ _ _ _) as [(e & o)|] eqn:EG; [|discriminate]. cbn [rmap fst] in Eq. apply Ok_inj in Eq. injection Eq as Eq. destruct e as [m|]; [|discriminate]. injection Eq as Eq. rewrite <- Eq in Qa.
    apply (inactive_sound _ _ _ _ _ _ fuel _ m o); auto; [apply block_forall; auto|lra|lra|lra].
Qed.
