(** The optimality check of the lasso path: proofs. *)
From Coq Require Import Reals List Lra Lia Arith Bool Permutation.
From Verif Require Import M_affine SpecAffine P_affine P_affine2 M_loss SpecLoss SpecSmooth P_smooth Vec Spec SpecConvex M_quad M_prox M_semi M_weighted P_quad P_calc P_sep M_problem M_cv SpecCv P_cv M_path SpecPath.
From Verif Require P_problem.
Import ListNotations.
Local Open Scope R_scope.

Lemma gtb_true : forall a b, gtb a b = true <-> b < a.
Proof. intros a b. unfold gtb. destruct (Rlt_dec b a); split; intros; auto; try discriminate; contradiction. Qed.
Lemma gtb_false : forall a b, gtb a b = false <-> a <= b.
Proof. intros a b. unfold gtb. destruct (Rlt_dec b a); split; intros; auto; try discriminate; lra. Qed.
Lemma is0_true : forall a, is0 a = true <-> a = 0.
Proof. intros a. unfold is0. destruct (Req_EM_T a 0); split; intros; auto; try discriminate; contradiction. Qed.
Lemma is0_false : forall a, is0 a = false <-> a <> 0.
Proof. intros a. unfold is0. destruct (Req_EM_T a 0); split; intros; auto; try discriminate; contradiction. Qed.
Lemma nth_map_seq : forall (A : Type) (F : nat -> A) n i d, (i < n)%nat -> nth i (map F (seq 0 n)) d = F i.
Proof. intros A F n i d H. rewrite (nth_indep _ d (F 0%nat)) by (rewrite map_length, seq_length; auto). rewrite map_nth, seq_nth by auto. auto. Qed.
(** ** ranks *)
Lemma filter_two : forall (A : Type) (p q : A -> bool) l, (forall a, p a = true -> q a = false) -> (length (filter p l) + length (filter q l) <= length l)%nat.
Proof. intros A p q l H. induction l as [|a r IH]; cbn; auto. destruct (p a) eqn:E; destruct (q a) eqn:E'; cbn; try lia. rewrite (H a E) in E'. discriminate. Qed.
Lemma rank_le : forall v j, (j < length v)%nat -> rankdata v j <= INR (length v).
Proof.
  intros v j Hj. unfold rankdata. set (less := length (filter _ v)). set (eqs := length (filter (fun a => is0 (a - nth j v 0)) v)).
  assert (A : (less + eqs <= length v)%nat). { apply filter_two. intros a Ha. apply gtb_true in Ha. apply is0_false. lra. }
  assert (B : (1 <= eqs)%nat). { unfold eqs. assert (I : In (nth j v 0) (filter (fun a => is0 (a - nth j v 0)) v)). { apply filter_In. split; [apply nth_In; auto|]. apply is0_true. lra. } destruct (filter (fun a => is0 (a - nth j v 0)) v); [contradiction|cbn; lia]. }
  apply le_INR in A. apply le_INR in B. rewrite plus_INR in A. cbn [INR] in B. lra.
Qed.
Lemma ranks_neg : forall w g s lam tol, inactive_passes (check_KKT w g s lam tol) <-> forall j, (j < length s)%nat -> inactive_term w g s lam j <= 1 + tol.
Proof.
  intros w g s lam tol. unfold inactive_passes, check_KKT, inactive_ranks. cbn [snd]. set (terms := map (inactive_term w g s lam) (seq 0 (length s))).
  assert (T : forall j, (j < length s)%nat -> nth j terms 0 = inactive_term w g s lam j) by (intros; apply nth_map_seq; auto). assert (L : length terms = length s) by (unfold terms; rewrite map_length, seq_length; auto).
  rewrite Forall_forall. split.
  - intros H j Hj. specialize (H _ (in_map _ _ j (proj2 (in_seq (length s) 0 j) ltac:(lia)))). cbv beta in H. rewrite T in H by auto. destruct (Rle_dec _ _); auto. exfalso. assert (R := rank_le terms j ltac:(lia)). rewrite L in R. lra.
  - intros H r Hr. apply in_map_iff in Hr. destruct Hr as (j & <- & Hj). apply in_seq in Hj. rewrite T by lia. destruct (Rle_dec _ _) as [?|N]; [lra|]. exfalso. apply N, H. lia.
Qed.
Lemma passes_iff : forall w g s lam tol, passes (check_KKT w g s lam tol) <->
  (forall j, (j < length s)%nat -> active_fails w g s lam tol j = false) /\ forall j, (j < length s)%nat -> inactive_term w g s lam j <= 1 + tol.
Proof.
  intros. rewrite <- ranks_neg. unfold passes, inactive_passes. cbn [fst check_KKT]. rewrite Forall_forall. split; intros (A & B); split; auto.
  - intros j Hj. apply A. apply in_map. apply in_seq. lia.
  - intros b Hb. apply in_map_iff in Hb. destruct Hb as (j & <- & Hj). apply A. apply in_seq in Hj. lia.
Qed.
(** ** sound *)
Lemma sign_abs : forall a, np_sign a * a = Rabs a.
Proof. intros a. unfold np_sign. destruct (Rlt_dec a 0); [rewrite Rabs_left by auto; ring|]. destruct (Rlt_dec 0 a); [rewrite Rabs_right by lra; ring|]. replace a with 0 by lra. rewrite Rabs_R0. ring. Qed.
Lemma sign_le : forall a b, np_sign a * b <= Rabs b.
Proof. intros a b. assert (H := Rle_abs b). assert (H' := Rle_abs (- b)). rewrite Rabs_Ropp in H'. unfold np_sign. destruct (Rlt_dec a 0); [lra|]. destruct (Rlt_dec 0 a); [lra|]. assert (X := Rabs_pos b). lra. Qed.
Lemma mean_pos : forall w m, mean_weight w = Some m -> 0 < m.
Proof.
  intros w m. unfold mean_weight. set (pos := filter _ w). destruct (Nat.eqb_spec (length pos) 0) as [E|E]; [discriminate|]. intros H. injection H as <-. apply Rdiv_lt_0_compat; [|apply lt_0_INR; lia].
  assert (F : forall a, In a pos -> 0 < a) by (intros a Ha; apply filter_In in Ha; apply gtb_true; tauto). revert E F. generalize pos. intros l. destruct l as [|a l]; [cbn; lia|]. intros _. revert a. induction l as [|b r IH]; intros a F; rewrite vsum_cons.
  - assert (H := F a (or_introl eq_refl)). cbn. lra.
  - assert (H := F a (or_introl eq_refl)). assert (H' := IH b ltac:(intros c Hc; apply F; cbn in *; tauto)). lra.
Qed.
Lemma abs_div_le : forall g c t, 0 < c -> Rabs (g / c) <= t -> Rabs g <= t * c.
Proof. intros g c t Hc H. unfold Rdiv in H. rewrite Rabs_mult, (Rabs_right (/ c)) in H by (apply Rle_ge, Rlt_le, Rinv_0_lt_compat; auto). apply (Rmult_le_compat_r c) in H; [|lra]. rewrite Rmult_assoc, Rinv_l in H by lra. lra. Qed.
Lemma abs_lower : forall a b, - (Rabs a * Rabs b) <= a * b.
Proof. intros a b. rewrite <- Rabs_mult. assert (H := Rle_abs (- (a * b))). rewrite Rabs_Ropp in H. lra. Qed.
(** one feature that passes *)
Lemma coordinate_sound : forall w g s lam tol m j v, 0 < lam -> 0 <= tol -> 0 <= nth j w 0 -> mean_weight w = Some m -> active_fails w g s lam tol j = false -> inactive_term w g s lam j <= 1 + tol ->
  0 <= nth j g 0 * (v - nth j s 0) + lam * (nth j w 0 * Rabs v) - lam * (nth j w 0 * Rabs (nth j s 0)) + tol * (slack w lam m j * Rabs (v - nth j s 0)).
Proof.
  intros w g s lam tol m j v Hl Ht Hw Em A I. assert (Pm := mean_pos _ _ Em). unfold slack. unfold active_fails in A. rewrite Em in A. unfold inactive_term in I. set (a := nth j w 0) in *. set (gj := nth j g 0) in *. set (sj := nth j s 0) in *.
  assert (Low := abs_lower gj (v - sj)). assert (Pv := Rabs_pos (v - sj)). destruct (Req_EM_T a 0) as [E|E].
  - replace (is0 a) with true in A by (symmetry; apply is0_true; auto). apply gtb_false in A. apply abs_div_le in A; auto. rewrite E. assert (Rabs gj * Rabs (v - sj) <= tol * m * Rabs (v - sj)) by (apply Rmult_le_compat_r; auto). lra.
  - assert (Pa : 0 < a) by lra. assert (Pla : 0 < lam * a) by (apply Rmult_lt_0_compat; auto). replace (is0 a) with false in A by (symmetry; apply is0_false; auto). replace (gtb a 0) with true in A, I by (symmetry; apply gtb_true; auto). rewrite andb_true_r in A, I.
    destruct (is0 sj) eqn:Es; cbn [negb] in A.
    + apply is0_true in Es. apply abs_div_le in I; auto. rewrite Es, Rabs_R0, Rminus_0_r in *. assert (Rabs gj * Rabs v <= (1 + tol) * (lam * a) * Rabs v) by (apply Rmult_le_compat_r; auto). lra.
    + apply gtb_false in A. set (q := gj / (lam * a) + np_sign sj) in *. assert (G : gj = lam * a * (q - np_sign sj)) by (unfold q; field; split; lra).
      assert (S1 := sign_abs sj). assert (S2 := sign_le sj v). assert (Low2 := abs_lower q (v - sj)). assert (Q : Rabs q * Rabs (v - sj) <= tol * Rabs (v - sj)) by (apply Rmult_le_compat_r; auto).
      assert (0 <= lam * a * (q * (v - sj) - (np_sign sj * v - Rabs sj) + Rabs v - Rabs sj + tol * Rabs (v - sj))). { apply Rmult_le_pos; [lra|]. lra. }
      rewrite G. rewrite <- S1 at 1. nra.
Qed.
Theorem kkt_sound : forall n f w g s lam tol m, convex_on n f -> is_gradient n f s g -> length s = n -> length w = n -> nonneg w -> 0 < lam -> 0 <= tol -> mean_weight w = Some m -> passes (check_KKT w g s lam tol) ->
  forall v, length v = n -> lasso_objective n f w lam s <= lasso_objective n f w lam v + tol * sum_over n (fun j => slack w lam m j * Rabs (nth j v 0 - nth j s 0)).
Proof.
  intros n f w g s lam tol m C G Ls Lw Nw Hl Ht Em K v Lv. apply passes_iff in K. destruct K as (A & I). rewrite Ls in A, I. assert (T := convex_tangent n f s g v C G Ls Lv). destruct G as (Lg & _). unfold lasso_objective.
  assert (D : dot g (vsub v s) = sum_over n (fun j => nth j g 0 * (nth j v 0 - nth j s 0))). { rewrite (dot_index n) by (auto; unfold vsub; apply vzip_length2; auto). apply sum_over_ext. intros j Hj. f_equal. unfold vsub. apply (nth_zip0 _ _ _ n); auto. }
  rewrite D in T. rewrite <- !sum_over_scal. assert (S : 0 <= sum_over n (fun j => nth j g 0 * (nth j v 0 - nth j s 0) + lam * (nth j w 0 * Rabs (nth j v 0)) + - 1 * (lam * (nth j w 0 * Rabs (nth j s 0))) + tol * (slack w lam m j * Rabs (nth j v 0 - nth j s 0)))).
  { apply (Rle_trans _ (sum_over n (fun _ => 0 * 0))); [rewrite (sum_over_scal n 0 (fun _ => 0)); lra|]. apply P_sep.sum_over_le. intros j Hj. assert (W : 0 <= nth j w 0) by (unfold nonneg in Nw; rewrite Forall_forall in Nw; apply Nw, nth_In; lia).
    assert (X := coordinate_sound w g s lam tol m j (nth j v 0) Hl Ht W Em (A j Hj) (I j Hj)). lra. }
  rewrite !sum_over_plus in S. rewrite (sum_over_scal n (-1)) in S. lra.
Qed.
(** ** first order conditions *)
(** the penalty along a coordinate *)
Definition penalty (n : nat) (w : vec) (lam : R) (v : vec) : R := lam * sum_over n (fun j => nth j w 0 * Rabs (nth j v 0)).
Lemma step_nth : forall n (x : vec) t c j i, length x = n -> (i < n)%nat -> nth i (vadd x (vscal t (vscal c (unit_vec n j)))) 0 = nth i x 0 + t * c * (if Nat.eqb i j then 1 else 0).
Proof.
  intros n x t c j i Lx Hi. unfold vadd. rewrite (nth_zip0 _ _ _ n); auto; [|unfold vscal, unit_vec; rewrite !map_length, seq_length; auto]. f_equal.
  unfold vscal, unit_vec. rewrite !map_map, nth_map_seq by auto. ring.
Qed.
Lemma single_change : forall n (F G : nat -> R) j, (j < n)%nat -> (forall i, (i < n)%nat -> i <> j -> G i = F i) -> sum_over n G = sum_over n F + (G j - F j).
Proof.
  intros n F G j Hj H. assert (X : sum_over n (fun i => G i + -1 * F i) = G j - F j). { rewrite (sum_over_single n j) by (auto; intros i Hi N; rewrite (H i) by auto; ring). ring. }
  rewrite sum_over_plus, (sum_over_scal n (-1)) in X. lra.
Qed.
Lemma penalty_step : forall n w lam (x : vec) t c j, length x = n -> (j < n)%nat -> penalty n w lam (vadd x (vscal t (vscal c (unit_vec n j)))) = penalty n w lam x + lam * (nth j w 0 * (Rabs (nth j x 0 + t * c) - Rabs (nth j x 0))).
Proof.
  intros n w lam x t c j Lx Hj. unfold penalty. rewrite (single_change n (fun i => nth i w 0 * Rabs (nth i x 0)) _ j Hj).
  - rewrite step_nth by auto. rewrite Nat.eqb_refl, Rmult_1_r. ring.
  - intros i Hi N. rewrite step_nth by auto. destruct (Nat.eqb_spec i j); [contradiction|]. rewrite Rmult_0_r, Rplus_0_r. auto.
Qed.
Lemma abs_segment : forall a c t, 0 <= t <= 1 -> Rabs (a + t * c) <= (1 - t) * Rabs a + t * Rabs (a + c).
Proof. intros a c t Ht. replace (a + t * c) with ((1 - t) * a + t * (a + c)) by ring. eapply Rle_trans; [apply Rabs_triang|]. rewrite !Rabs_mult, (Rabs_right (1 - t)), (Rabs_right t) by lra. lra. Qed.
Lemma unit_scal_length : forall n c j, length (vscal c (unit_vec n j)) = n.
Proof. intros. unfold vscal. rewrite map_length. apply unit_vec_length. Qed.
(** if no step along coordinate j improves, the coordinate is stationary *)
Lemma coordinate_first : forall n f w g x lam j, is_gradient n f x g -> length x = n -> 0 <= lam -> 0 <= nth j w 0 -> (j < n)%nat ->
  (forall c, lasso_objective n f w lam x <= lasso_objective n f w lam (vadd x (vscal c (unit_vec n j)))) -> forall c, 0 <= nth j g 0 * c + lam * (nth j w 0 * Rabs (nth j x 0 + c)) - lam * (nth j w 0 * Rabs (nth j x 0)).
Proof.
  intros n f w g x lam j G Lx Hl Hw Hj M c. assert (V : forall t d : R, vscal t (vscal d (unit_vec n j)) = vscal (t * d) (unit_vec n j)). { intros t d. unfold vscal. rewrite map_map. apply map_ext. intros a. ring. }
  assert (One : vscal 1 (vscal c (unit_vec n j)) = vscal c (unit_vec n j)) by (rewrite V, Rmult_1_l; auto).
  assert (X := P_problem.first_order n f (penalty n w lam) x g (vscal c (unit_vec n j)) G (unit_scal_length _ _ _)).
  assert (X' : 0 <= dot g (vscal c (unit_vec n j)) + penalty n w lam (vadd x (vscal c (unit_vec n j))) - penalty n w lam x).
  { apply X; auto.
    - intros t Ht. rewrite <- One at 2. rewrite !penalty_step by auto. assert (A := abs_segment (nth j x 0) c t Ht). rewrite Rmult_1_l.
      assert (lam * nth j w 0 * Rabs (nth j x 0 + t * c) <= lam * nth j w 0 * ((1 - t) * Rabs (nth j x 0) + t * Rabs (nth j x 0 + c))) by (apply Rmult_le_compat_l; [apply Rmult_le_pos; auto|auto]). lra.
    - intros t Ht. rewrite V. apply (M (t * c)). }
  rewrite <- One in X' at 2. rewrite penalty_step, Rmult_1_l in X' by auto. destruct G as (Lg & _). rewrite dot_scal_r, dot_unit in X' by auto. lra.
Qed.
Lemma stationary_passes : forall w g s lam tol j, 0 < lam -> 0 <= tol -> 0 <= nth j w 0 -> (forall c, 0 <= nth j g 0 * c + lam * (nth j w 0 * Rabs (nth j s 0 + c)) - lam * (nth j w 0 * Rabs (nth j s 0))) ->
  active_fails w g s lam tol j = false /\ inactive_term w g s lam j <= 1 + tol.
Proof.
  intros w g s lam tol j Hl Ht Hw S. unfold active_fails, inactive_term. set (a := nth j w 0) in *. set (gj := nth j g 0) in *. set (sj := nth j s 0) in *. destruct (is0 a) eqn:Ea.
  - apply is0_true in Ea. assert (G0 : gj = 0). { assert (S1 := S 1). assert (S2 := S (-1)). rewrite Ea in S1, S2. lra. } split.
    + destruct (mean_weight w); auto. apply gtb_false. rewrite G0. unfold Rdiv. rewrite Rmult_0_l, Rabs_R0. auto.
    + replace (gtb a 0) with false by (symmetry; apply gtb_false; lra). rewrite andb_false_r. lra.
  - apply is0_false in Ea. assert (Pa : 0 < a) by lra. assert (Pla : 0 < lam * a) by (apply Rmult_lt_0_compat; auto). replace (gtb a 0) with true by (symmetry; apply gtb_true; auto). rewrite !andb_true_r. destruct (is0 sj) eqn:Es; cbn [negb].
    + split; auto. apply is0_true in Es. assert (S1 := S 1). assert (S2 := S (-1)). rewrite Es, !Rplus_0_l, Rabs_R0 in S1, S2. rewrite Rabs_R1 in S1. rewrite (Rabs_left (-1)) in S2 by lra.
      unfold Rdiv. rewrite Rabs_mult, (Rabs_right (/ (lam * a))) by (apply Rle_ge, Rlt_le, Rinv_0_lt_compat; auto). assert (B : Rabs gj <= lam * a) by (apply Rabs_le; lra).
      apply (Rmult_le_compat_r (/ (lam * a))) in B; [|apply Rlt_le, Rinv_0_lt_compat; auto]. rewrite Rinv_r in B by lra. lra.
    + split; [|lra]. apply is0_false in Es. apply gtb_false. assert (G : gj = - (lam * a) * np_sign sj).
      { unfold np_sign. destruct (Rlt_dec sj 0) as [L|L].
        - assert (S1 := S sj). assert (S2 := S (- sj)). replace (sj + - sj) with 0 in S2 by ring. rewrite Rabs_R0 in S2. rewrite (Rabs_left sj) in S1, S2 by auto. rewrite (Rabs_left (sj + sj)) in S1 by lra. nra.
        - destruct (Rlt_dec 0 sj) as [L'|L']; [|exfalso; apply Es; lra]. assert (S1 := S sj). assert (S2 := S (- sj)). replace (sj + - sj) with 0 in S2 by ring. rewrite Rabs_R0 in S2. rewrite (Rabs_right sj) in S1, S2 by lra. rewrite (Rabs_right (sj + sj)) in S1 by lra. nra. }
      rewrite G. replace (- (lam * a) * np_sign sj / (lam * a) + np_sign sj) with 0 by (field; split; lra). rewrite Rabs_R0. auto.
Qed.
Theorem kkt_complete : forall n f w g s lam tol, is_gradient n f s g -> length s = n -> length w = n -> nonneg w -> 0 < lam -> 0 <= tol -> (forall v, length v = n -> lasso_objective n f w lam s <= lasso_objective n f w lam v) ->
  passes (check_KKT w g s lam tol).
Proof.
  intros n f w g s lam tol G Ls Lw Nw Hl Ht M. assert (A : forall j, (j < n)%nat -> active_fails w g s lam tol j = false /\ inactive_term w g s lam j <= 1 + tol).
  { intros j Hj. assert (W : 0 <= nth j w 0) by (unfold nonneg in Nw; rewrite Forall_forall in Nw; apply Nw, nth_In; lia). apply stationary_passes; auto. apply (coordinate_first n f w g s lam j); auto; [lra|]. intros c. apply M. unfold vadd. apply vzip_length2; auto. apply unit_scal_length. }
  apply passes_iff. rewrite Ls. split; intros j Hj; apply A; auto.
Qed.
(** With no penalized feature at all, nothing is ever reported. *)
Theorem kkt_blind : forall g s lam tol, 0 <= tol -> passes (check_KKT (zeros (length s)) g s lam tol).
Proof.
  intros g s lam tol Ht. apply passes_iff. assert (Z : forall j, nth j (zeros (length s)) 0 = 0) by (intros; unfold zeros; apply nth_repeat). split; intros j Hj.
  - unfold active_fails. rewrite Z. replace (is0 0) with true by (symmetry; apply is0_true; auto). replace (mean_weight (zeros (length s))) with (@None R); auto. unfold mean_weight. replace (filter _ (zeros (length s))) with (@nil R); auto.
    generalize (length s) as n. induction n as [|n IH]; auto. cbn [zeros repeat filter]. replace (gtb 0 0) with false by (symmetry; apply gtb_false; lra). auto.
  - unfold inactive_term. rewrite Z. replace (gtb 0 0) with false by (symmetry; apply gtb_false; lra). rewrite andb_false_r. lra.
Qed.
